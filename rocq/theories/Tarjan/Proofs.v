From stdpp Require Import base list list_numbers relations.
From Coq Require Import Lia.
From Verif.Tarjan Require Import Model Spec.

Lemma upd_same f i x : upd f i x i = x.
Proof. unfold upd. now rewrite Nat.eqb_refl. Qed.
Lemma upd_other f i x j : j <> i -> upd f i x j = f j.
Proof. intros H. unfold upd. apply Nat.eqb_neq in H. now rewrite H. Qed.

Section Proofs.
  Variables (n MAX : nat) (root : nat -> nat) (succs : nat -> list nat).
  Variable idx0 : nat -> nat.
  Hypothesis Hn : n < MAX.
  Notation NV := (NOT_VISITED MAX).
  Notation FIN := (SCC_FINISHED MAX).
  Notation node := (is_node n root).
  Notation edge := (edge n root succs).
  Notation path := (path n root succs).
  Hypothesis WF : well_formed n root succs.

  Lemma FIN_NV : FIN <> NV. Proof. unfold SCC_FINISHED, NOT_VISITED. lia. Qed.
  Lemma edge_node v w : edge v w -> node w.
  Proof. intros (Hv & x & Hx & <-). eauto. Qed.
  Lemma edge_src v w : edge v w -> node v.
  Proof. intros (Hv & _). exact Hv. Qed.

  Definition desc (par : nat -> nat) (v y : nat) : Prop := rtc (fun a b => b = par a) y v.

  Definition whites (ord : nat -> nat) : list nat :=
    filter (fun v => root v = v /\ ord v = NV) (seq 0 n).

  (** the shape of the DFS stack: one copy of every gray node, above each gray
      node g successors of g that were not visited when pushed *)
  Fixpoint stk_ok (ord : nat -> nat) (gray dfs : list nat) : Prop :=
    match gray with
    | [] => dfs = []
    | g :: gray => exists pend rest, dfs = pend ++ g :: rest /\
        (forall x, x ∈ pend -> edge g x /\ ord g < ord x) /\
        (forall x, edge g x -> ord x <> NV \/ x ∈ pend) /\
        stk_ok ord gray rest
    end.

  Record inv (s : state) (gray : list nat) (par : nat -> nat) : Prop := {
    i_next : nextOrder s + length (whites (order s)) <= n;
    i_class : forall v, order s v = NV \/ order s v = FIN \/ order s v < nextOrder s;
    i_open : forall v, v ∈ sccStack s <-> order s v < nextOrder s;
    i_sorted : forall i j v w, i < j -> sccStack s !! i = Some v -> sccStack s !! j = Some w ->
                               order s w < order s v;
    i_node : forall v, order s v <> NV -> node v;
    i_gray : forall g, g ∈ gray -> g ∈ sccStack s;
    i_graysorted : forall i j v w, i < j -> gray !! i = Some v -> gray !! j = Some w -> order s w < order s v;
    i_par : forall v, v ∈ sccStack s -> par v = v \/
              (edge (par v) v /\ par v ∈ sccStack s /\ order s (par v) < order s v);
    i_gdesc : forall g y, g ∈ gray -> y ∈ sccStack s -> order s g <= order s y -> desc par g y;
    i_pargray : forall g, g ∈ gray -> par g = g \/ par g ∈ gray;
    i_black : forall v x, order s v <> NV -> v ∉ gray -> edge v x -> order s x <> NV;
    i_fin : forall v x, order s v = FIN -> edge v x -> order s x = FIN /\ sccIndex s x <= sccIndex s v;
    i_low : forall v, v ∈ sccStack s -> exists w, w ∈ sccStack s /\ lowLink s v = order s w /\
              order s w <= order s v /\ path v w;
    i_blacklow : forall v, v ∈ sccStack s -> v ∉ gray -> lowLink s v < order s v;
    i_desc : forall v y x, v ∈ sccStack s -> v ∉ gray -> desc par v y -> y ∈ sccStack s -> edge y x ->
              x ∈ sccStack s -> lowLink s v <= order s x;
    i_scc : forall v w, order s v = FIN -> order s w = FIN -> sccIndex s v = sccIndex s w -> path v w;
    i_bound : forall v, order s v = FIN -> sccIndex s v < sccsFinished s;
    i_onto : forall i, i < sccsFinished s -> exists v, order s v = FIN /\ sccIndex s v = i;
    i_rto : forall v, v ∈ rto s <-> order s v = FIN;
    i_nodup : NoDup (rto s);
    i_rtosorted : forall i j v w, i < j -> rto s !! i = Some v -> rto s !! j = Some w ->
                    sccIndex s v <= sccIndex s w;
    i_frame : forall v, order s v <> FIN -> sccIndex s v = idx0 v }.

  Section Facts.
    Context (s : state) (gray : list nat) (par : nat -> nat) (I : inv s gray par).
    Lemma next_le : nextOrder s <= FIN.
    Proof. pose proof (i_next _ _ _ I). unfold SCC_FINISHED. lia. Qed.
    Lemma open_lt v : v ∈ sccStack s -> order s v < FIN /\ order s v < NV.
    Proof.
      intros H. apply (i_open _ _ _ I) in H. pose proof next_le.
      unfold SCC_FINISHED, NOT_VISITED in *. lia.
    Qed.
    Lemma open_classify v : order s v <> NV -> order s v <> FIN -> v ∈ sccStack s.
    Proof. intros H1 H2. apply (i_open _ _ _ I). destruct (i_class _ _ _ I v) as [|[|]]; congruence. Qed.
    Lemma order_inj v w : v ∈ sccStack s -> w ∈ sccStack s -> order s v = order s w -> v = w.
    Proof.
      intros Hv Hw He. apply elem_of_list_lookup in Hv as [i Hi]. apply elem_of_list_lookup in Hw as [j Hj].
      destruct (lt_eq_lt_dec i j) as [[H|H]|H].
      - pose proof (i_sorted _ _ _ I _ _ _ _ H Hi Hj). lia.
      - subst. congruence.
      - pose proof (i_sorted _ _ _ I _ _ _ _ H Hj Hi). lia.
    Qed.
    Lemma gray_top g gs x : gray = g :: gs -> x ∈ gray -> order s x <= order s g.
    Proof.
      intros -> Hx. apply elem_of_list_lookup in Hx as [[|i] Hi].
      - simpl in Hi. injection Hi as ->. lia.
      - pose proof (i_graysorted _ _ _ I 0 (S i) g x ltac:(lia) eq_refl Hi). lia.
    Qed.
    Lemma desc_open v y : y ∈ sccStack s -> desc par v y -> v ∈ sccStack s /\ order s v <= order s y /\ path v y.
    Proof.
      intros Hy Hd. unfold desc in Hd. induction Hd as [y|y z v Hz Hd IH].
      - split; [exact Hy|]. split; [lia|]. apply rtc_refl.
      - subst z. destruct (i_par _ _ _ I _ Hy) as [He|(He & Ho & Hlt)].
        + rewrite He in *. destruct (IH Hy) as (? & ? & ?). auto.
        + destruct (IH Ho) as (? & ? & ?). split; [assumption|]. split; [lia|].
          eapply rtc_r; eassumption.
    Qed.
    (** a strict descendant is below a child *)
    Lemma desc_child v y : y ∈ sccStack s -> desc par v y -> y = v \/
      exists c, desc par c y /\ c ∈ sccStack s /\ par c = v /\ edge v c /\ order s v < order s c.
    Proof.
      intros Hy Hd. unfold desc in Hd. induction Hd as [y|y z v Hz Hd IH].
      - now left.
      - subst z. destruct (i_par _ _ _ I _ Hy) as [He|(He & Ho & Hlt)].
        + rewrite He in *. now apply IH.
        + destruct (IH Ho) as [<-|(c & Hc & Hco & Hp & Hec & Hlt')].
          * right. exists y. split; [apply rtc_refl|]. auto.
          * right. exists c. split; [eapply rtc_l; [reflexivity|exact Hc]|]. auto.
    Qed.
  End Facts.

  (** ** push_successors *)
  Lemma push_spec ord v stk :
    exists new, push_successors MAX root succs ord v stk = new ++ stk /\
      (forall x, x ∈ new <-> ord x = NV /\ exists y, y ∈ succs v /\ root y = x) /\
      length new <= length (succs v).
  Proof.
    unfold push_successors. generalize (succs v) as l. intros l. revert stk.
    induction l as [|y l IH]; intros stk; simpl.
    - exists []. split; [reflexivity|]. split; [|simpl; lia].
      intros x. split; [intros H; inversion H|intros (_ & y & H & _); inversion H].
    - destruct (Nat.eqb_spec (ord (root y)) NV) as [E|E].
      + destruct (IH (root y :: stk)) as (new & -> & Hnew & Hlen).
        exists (new ++ [root y]). rewrite <- app_assoc. split; [reflexivity|]. split.
        * intros x. rewrite elem_of_app, elem_of_list_singleton, Hnew. split.
          -- intros [(H1 & z & Hz & <-)| ->].
             ++ split; [exact H1|]. exists z. split; [now right|reflexivity].
             ++ split; [exact E|]. exists y. split; [now left|reflexivity].
          -- intros (H1 & z & Hz & <-). apply elem_of_cons in Hz as [->|Hz]; [now right|].
             left. split; [exact H1|]. exists z. auto.
        * rewrite app_length. simpl. lia.
      + destruct (IH stk) as (new & -> & Hnew & Hlen). exists new. split; [reflexivity|]. split; [|lia].
        intros x. rewrite Hnew. split.
        * intros (H1 & z & Hz & <-). split; [exact H1|]. exists z. split; [now right|reflexivity].
        * intros (H1 & z & Hz & <-). apply elem_of_cons in Hz as [->|Hz]; [contradiction|].
          split; [exact H1|]. exists z. auto.
  Qed.

  (** ** relax *)
  Lemma relax_spec ord v low :
    let low' := relax MAX root succs ord v low in
    (forall u, u <> v -> low' u = low u) /\ low' v <= low v /\
    (forall x, x ∈ succs v -> ord (root x) <> FIN -> low' v <= low (root x)) /\
    (low' v = low v \/ exists x, x ∈ succs v /\ ord (root x) <> FIN /\ low' v = low (root x)).
  Proof.
    unfold relax. generalize (succs v) as l. intros l. revert low.
    induction l as [|y l IH]; intros low; cbn [fold_left]; cbv zeta.
    - repeat split; auto. intros x H; inversion H.
    - destruct (Nat.eqb_spec (ord (root y)) FIN) as [E|E].
      + destruct (IH low) as (H1 & H2 & H3 & H4). split; [exact H1|]. split; [exact H2|]. split.
        * intros x Hx Hf. apply elem_of_cons in Hx as [->|Hx]; [contradiction|auto].
        * destruct H4 as [H4|(x & Hx & Hf & He)]; [now left|]. right. exists x. split; [now right|auto].
      + destruct (IH (upd low v (Nat.min (low v) (low (root y))))) as (H1 & H2 & H3 & H4).
        rewrite upd_same in H2, H4. split; [|split; [|split]].
        * intros u Hu. rewrite H1 by assumption. now apply upd_other.
        * lia.
        * intros x Hx Hf. apply elem_of_cons in Hx as [->|Hx]; [lia|].
          specialize (H3 x Hx Hf). destruct (Nat.eq_dec (root x) v) as [He|He].
          -- rewrite He in *. rewrite upd_same in H3. lia.
          -- rewrite upd_other in H3 by assumption. exact H3.
        * destruct H4 as [H4|(x & Hx & Hf & He)].
          -- destruct (Nat.min_spec (low v) (low (root y))) as [[_ Hm]|[_ Hm]].
             ++ left. rewrite H4. exact Hm.
             ++ right. exists y. split; [now left|]. split; [exact E|]. rewrite H4. exact Hm.
          -- destruct (Nat.eq_dec (root x) v) as [Hxv|Hxv].
             ++ rewrite Hxv in He. rewrite upd_same in He.
                destruct (Nat.min_spec (low v) (low (root y))) as [[_ Hm]|[_ Hm]].
                ** left. rewrite He. exact Hm.
                ** right. exists y. split; [now left|]. split; [exact E|]. rewrite He. exact Hm.
             ++ rewrite upd_other in He by assumption. right. exists x. split; [now right|]. auto.
  Qed.

  (** ** pop_scc *)
  Lemma pop_scc_spec v k A B ord idx r :
    v ∉ A ->
    exists ord' idx', pop_scc MAX v k (A ++ v :: B) ord idx r = Some (B, ord', idx', r ++ A ++ [v]) /\
      (forall x, x ∈ A ++ [v] -> ord' x = FIN /\ idx' x = k) /\
      (forall x, x ∉ A ++ [v] -> ord' x = ord x /\ idx' x = idx x).
  Proof.
    revert ord idx r. induction A as [|a A IH]; intros ord idx r Hv; simpl.
    - rewrite Nat.eqb_refl. eexists _, _. split; [reflexivity|]. split; intros x Hx.
      + apply elem_of_list_singleton in Hx as ->. now rewrite !upd_same.
      + rewrite elem_of_list_singleton in Hx. now rewrite !upd_other.
    - destruct (Nat.eqb_spec a v) as [->|Ha]; [exfalso; apply Hv; now left|].
      destruct (IH (upd ord a FIN) (upd idx a k) (r ++ [a])) as (ord' & idx' & E & H1 & H2).
      { intros H. apply Hv. now right. }
      exists ord', idx'. split.
      { rewrite E, <- app_assoc. reflexivity. }
      split; intros x Hx.
      + destruct (decide (x ∈ A ++ [v])) as [Hi|Hi]; [auto|].
        apply elem_of_cons in Hx as [->|Hx]; [|contradiction].
        destruct (H2 _ Hi) as [-> ->]. now rewrite !upd_same.
      + apply not_elem_of_cons in Hx as [Hxa Hx]. destruct (H2 _ Hx) as [-> ->].
        now rewrite !upd_other.
  Qed.

  (** ** counting unvisited nodes *)
  Lemma whites_upd ord m k :
    node m -> ord m = NV -> k <> NV ->
    length (whites ord) = S (length (whites (upd ord m k))).
  Proof.
    intros [Hm Hr] Ho Hk. unfold whites.
    assert (m ∈ seq 0 n) as Hin by (apply elem_of_seq; lia).
    pose proof (NoDup_seq 0 n) as Hnd. revert Hin Hnd. generalize (seq 0 n) as l.
    induction l as [|a l IH]; intros Hin Hnd; [inversion Hin|].
    apply NoDup_cons in Hnd as [Ha Hnd]. rewrite !filter_cons.
    destruct (decide (a = m)) as [->|Hne].
    - rewrite decide_True by auto. rewrite decide_False by (rewrite upd_same; tauto).
      simpl. f_equal. f_equal. clear IH Hin Hnd. induction l as [|b l IH]; [reflexivity|].
      rewrite !filter_cons. apply not_elem_of_cons in Ha as [Hb Ha].
      rewrite (upd_other _ _ _ b) by auto.
      destruct (decide (root b = b /\ ord b = NV)); rewrite IH by assumption; reflexivity.
    - apply elem_of_cons in Hin as [->|Hin]; [congruence|]. rewrite (upd_other _ _ _ a) by auto.
      destruct (decide (root a = a /\ ord a = NV)); simpl; rewrite IH by assumption; reflexivity.
  Qed.

  (** ** stk_ok under changes of the order *)
  Lemma stk_ok_mono ord ord' gray dfs :
    (forall g, g ∈ gray -> ord' g = ord g) ->
    (forall x, ord x <> NV -> ord' x <> NV) ->
    (forall g x, g ∈ gray -> ord g < ord x -> ord g < ord' x) ->
    stk_ok ord gray dfs -> stk_ok ord' gray dfs.
  Proof.
    intros Hg Hv Hx. revert dfs. induction gray as [|g gray IH]; intros dfs; simpl; [auto|].
    intros (pend & rest & -> & H1 & H2 & H3). exists pend, rest. split; [reflexivity|]. split.
    - intros x Hp. destruct (H1 x Hp) as [He Hlt]. split; [exact He|].
      rewrite Hg by now left. apply Hx; [now left|exact Hlt].
    - split.
      + intros x He. destruct (H2 x He) as [H|H]; auto.
      + apply IH; auto. intros g' Hg'. apply Hg. now right. intros g' x Hg'. apply Hx. now right.
  Qed.

  Lemma desc_gray s gray par v g : inv s gray par -> g ∈ gray -> desc par v g -> v ∈ gray.
  Proof.
    intros I Hg Hd. unfold desc in Hd. induction Hd as [g|g z v Hz Hd IH]; [exact Hg|].
    subst z. apply IH. destruct (i_pargray _ _ _ I _ Hg) as [->|]; assumption.
  Qed.

  Lemma visit_inv s gray par m r :
    inv s gray par -> node m -> order s m = NV -> dfsStack s = m :: r ->
    (gray = [] /\ r = [] \/ gray <> [] /\ stk_ok (order s) gray (dfsStack s)) ->
    let s' := first_visit MAX root succs s m in
    exists gray' par', inv s' gray' par' /\ stk_ok (order s') gray' (dfsStack s').
  Proof.
    intros I Hm Hw Hdfs Hcase s'.
    pose proof (whites_upd (order s) m (nextOrder s) Hm Hw) as Hcount.
    assert (nextOrder s < n) as Hlt.
    { pose proof (i_next _ _ _ I) as Hx. assert (0 < length (whites (order s))); [|lia].
      unfold whites. destruct (filter _ _) as [|a l] eqn:E; [|simpl; lia]. exfalso.
      assert (m ∈ @nil nat) as Hi; [|inversion Hi]. rewrite <- E. apply elem_of_list_filter.
      destruct Hm as [Hm1 Hm2]. split; [auto|]. apply elem_of_seq. lia. }
    assert (nextOrder s < FIN /\ nextOrder s < NV) as [HltF HltN].
    { unfold SCC_FINISHED, NOT_VISITED. lia. }
    specialize (Hcount ltac:(lia)).
    assert (m ∉ sccStack s) as Hmo.
    { intros H. apply (open_lt _ _ _ I) in H. lia. }
    set (ord' := upd (order s) m (nextOrder s)) in *.
    assert (forall v, v ∈ sccStack s -> ord' v = order s v) as Hold.
    { intros v Hv. unfold ord'. apply upd_other. congruence. }
    assert (ord' m = nextOrder s) as Hordm by apply upd_same.
    assert (forall v, v <> m -> ord' v = order s v) as Hne by (intros; now apply upd_other).
    assert (forall v, v ∈ sccStack s -> order s v < nextOrder s) as Hlow by (intros; now apply (i_open _ _ _ I)).
    set (p := match gray with [] => m | g :: _ => g end).
    set (par' := upd par m p).
    assert (forall v, v ∈ sccStack s -> par' v = par v) as Hpar.
    { intros v Hv. unfold par'. apply upd_other. congruence. }
    assert (par' m = p) as Hparm by apply upd_same.
    (* the edge from the top gray node *)
    assert (gray = [] /\ r = [] \/ exists g gs, gray = g :: gs /\ edge g m /\ g ∈ sccStack s) as Hgm.
    { destruct Hcase as [H|[Hne' Hs]]; [now left|]. right. destruct gray as [|g gs]; [congruence|].
      exists g, gs. split; [reflexivity|]. assert (g ∈ sccStack s) as Hg by (apply (i_gray _ _ _ I); now left).
      split; [|exact Hg]. destruct Hs as (pend & rest & He & H1 & _). rewrite Hdfs in He.
      destruct pend as [|x pend]; simpl in He; injection He as -> ->.
      - contradiction.
      - apply (H1 x). now left. }
    assert (forall v y, y ∈ sccStack s -> desc par v y -> desc par' v y) as T1.
    { intros v y Hy Hd. unfold desc in *. induction Hd as [y|y z v Hz Hd IH]; [apply rtc_refl|].
      subst z. eapply rtc_l; [symmetry; apply Hpar; exact Hy|]. apply IH.
      destruct (i_par _ _ _ I _ Hy) as [->|(_ & ? & _)]; assumption. }
    assert (forall v y, y ∈ sccStack s -> desc par' v y -> desc par v y) as T2.
    { intros v y Hy Hd. unfold desc in *. induction Hd as [y|y z v Hz Hd IH]; [apply rtc_refl|].
      rewrite Hpar in Hz by exact Hy.
      subst z. eapply rtc_l; [reflexivity|]. apply IH.
      destruct (i_par _ _ _ I _ Hy) as [->|(_ & ? & _)]; assumption. }
    assert (forall v, desc par' v m -> v ∈ m :: gray) as T3.
    { intros v Hd. destruct Hgm as [[Hg0 _]|(g & gs & Hgg & _ & Hgo)].
      - assert (p = m) as Hpm by (unfold p; now rewrite Hg0).
        assert (forall u y, rtc (fun a b => b = par' a) y u -> y = m -> u = m) as HH.
        { clear Hd v. intros u y Hr. induction Hr as [y|y z u Hz Hr IH]; [auto|]. intros ->. apply IH. congruence. }
        rewrite (HH v m Hd eq_refl). now left.
      - inversion Hd as [|? z ? Hz Hr]; subst; [now left|]. right.
        rewrite Hparm in Hr. unfold p in Hr.
        eapply desc_gray; [exact I| |apply T2; [exact Hgo|exact Hr]]. now left. }
    exists (m :: gray), par'. split.
    - constructor; unfold s', first_visit; cbn [sccsFinished sccIndex rto order nextOrder lowLink dfsStack sccStack]; fold ord'.
      + pose proof (i_next _ _ _ I). lia.
      + intros v. destruct (Nat.eq_dec v m) as [->|Hv]; [lia|]. rewrite Hne by exact Hv.
        destruct (i_class _ _ _ I v) as [|[|]]; auto.
      + intros v. rewrite elem_of_cons, (i_open _ _ _ I). destruct (Nat.eq_dec v m) as [->|Hv].
        * split; [lia|auto].
        * rewrite Hne by exact Hv. split; [intros [|]; [congruence|lia]|].
          intros H. right. destruct (i_class _ _ _ I v) as [E|[E|E]]; lia.
      + intros [|i] [|j] v w Hij Hv Hw'; try lia; simpl in Hv, Hw'.
        * injection Hv as ->. apply elem_of_list_lookup_2 in Hw'. rewrite Hordm, Hold by exact Hw'. auto.
        * rewrite (Hold v), (Hold w) by (eapply elem_of_list_lookup_2; eassumption).
          eapply (i_sorted _ _ _ I i j); [lia|eassumption..].
      + intros v. destruct (Nat.eq_dec v m) as [->|Hv]; [auto|]. rewrite Hne by exact Hv. apply (i_node _ _ _ I).
      + intros g Hg. apply elem_of_cons in Hg as [->|Hg]; [now left|]. right. now apply (i_gray _ _ _ I).
      + intros [|i] [|j] v w Hij Hv Hw'; try lia; simpl in Hv, Hw'.
        * injection Hv as ->. apply elem_of_list_lookup_2, (i_gray _ _ _ I) in Hw'. rewrite Hordm, Hold by exact Hw'. auto.
        * rewrite (Hold v), (Hold w) by (apply (i_gray _ _ _ I); eapply elem_of_list_lookup_2; eassumption).
          eapply (i_graysorted _ _ _ I i j); [lia|eassumption..].
      + intros v Hv. apply elem_of_cons in Hv as [->|Hv].
        * rewrite Hparm. destruct Hgm as [[Hg0 _]|(g & gs & Hgg & He & Hgo)].
          -- left. unfold p. now rewrite Hg0.
          -- right. unfold p. rewrite Hgg. split; [exact He|]. split; [now right|].
             rewrite Hordm, Hold by exact Hgo. auto.
        * rewrite Hpar by exact Hv. destruct (i_par _ _ _ I _ Hv) as [?|(? & ? & ?)]; [now left|].
          right. split; [assumption|]. split; [now right|]. rewrite !Hold by assumption. assumption.
      + intros g y Hg Hy Hle. apply elem_of_cons in Hg as [->|Hg].
        * apply elem_of_cons in Hy as [->|Hy]; [apply rtc_refl|]. rewrite Hordm, Hold in Hle by exact Hy.
          specialize (Hlow y Hy). lia.
        * apply elem_of_cons in Hy as [->|Hy].
          -- destruct Hgm as [[Hg0 _]|(g0 & gs & Hgg & He & Hgo)]; [rewrite Hg0 in Hg; inversion Hg|].
             unfold desc. eapply rtc_l; [reflexivity|]. rewrite Hparm. unfold p. rewrite Hgg.
             apply T1; [exact Hgo|]. apply (i_gdesc _ _ _ I); [exact Hg|exact Hgo|].
             eapply gray_top; eassumption.
          -- apply T1; [exact Hy|]. apply (i_gdesc _ _ _ I); [exact Hg|exact Hy|].
             rewrite !Hold in Hle; [exact Hle|exact Hy|now apply (i_gray _ _ _ I)].
      + intros g Hg. apply elem_of_cons in Hg as [->|Hg].
        * rewrite Hparm. unfold p. destruct gray; [now left|]. right. right. now left.
        * rewrite Hpar by now apply (i_gray _ _ _ I). destruct (i_pargray _ _ _ I _ Hg); [now left|right; now right].
      + intros v x Hv Hg He. apply not_elem_of_cons in Hg as [Hvm Hg]. rewrite Hne in Hv by exact Hvm.
        pose proof (i_black _ _ _ I v x Hv Hg He). rewrite Hne by congruence. assumption.
      + intros v x Hv He. assert (v <> m) by (intros ->; lia). rewrite Hne in Hv by assumption.
        destruct (i_fin _ _ _ I v x Hv He) as [H1 H2]. rewrite Hne; [auto|]. intros ->.
        rewrite Hw in H1. symmetry in H1. now apply FIN_NV in H1.
      + intros v Hv. apply elem_of_cons in Hv as [->|Hv].
        * exists m. split; [now left|]. rewrite upd_same, Hordm. split; [reflexivity|]. split; [lia|apply rtc_refl].
        * rewrite upd_other by congruence. destruct (i_low _ _ _ I v Hv) as (w & H1 & H2 & H3 & H4).
          exists w. split; [now right|]. rewrite !Hold by assumption. auto.
      + intros v Hv Hg. apply not_elem_of_cons in Hg as [Hvm Hg]. apply elem_of_cons in Hv as [|Hv]; [congruence|].
        rewrite upd_other by congruence. rewrite Hold by assumption. now apply (i_blacklow _ _ _ I).
      + intros v y x Hv Hg Hd Hy He Hx. pose proof Hg as Hg'. apply not_elem_of_cons in Hg' as [Hvm Hgv].
        apply elem_of_cons in Hv as [|Hv]; [congruence|]. rewrite upd_other by congruence.
        apply elem_of_cons in Hy as [->|Hy]; [exfalso; apply Hg, T3, Hd|].
        apply T2 in Hd; [|exact Hy].
        apply elem_of_cons in Hx as [->|Hx].
        * exfalso. assert (y ∉ gray) as Hyg by (intros Hyg; apply Hgv; eapply desc_gray; eassumption).
          assert (order s y <> NV) as Hyv by (pose proof (open_lt _ _ _ I y Hy); lia).
          exact (i_black _ _ _ I y m Hyv Hyg He Hw).
        * rewrite Hold by exact Hx. eapply (i_desc _ _ _ I); eassumption.
      + intros v w Hv Hw'. assert (v <> m) by (intros ->; lia). assert (w <> m) by (intros ->; lia).
        rewrite Hne in Hv, Hw' by assumption. now apply (i_scc _ _ _ I).
      + intros v Hv. assert (v <> m) by (intros ->; lia). rewrite Hne in Hv by assumption. now apply (i_bound _ _ _ I).
      + intros i Hi. destruct (i_onto _ _ _ I i Hi) as (v & H1 & H2). exists v. rewrite Hne; [auto|].
        intros ->. rewrite Hw in H1. symmetry in H1. now apply FIN_NV in H1.
      + intros v. rewrite (i_rto _ _ _ I). destruct (Nat.eq_dec v m) as [->|Hv].
        * rewrite Hordm, Hw. pose proof FIN_NV. split; [congruence|lia].
        * now rewrite Hne.
      + apply (i_nodup _ _ _ I).
      + apply (i_rtosorted _ _ _ I).
      + intros v Hv. apply (i_frame _ _ _ I). destruct (Nat.eq_dec v m) as [->|Hvm].
        * rewrite Hw. pose proof FIN_NV. congruence.
        * now rewrite Hne in Hv.
    - unfold s', first_visit; cbn [sccsFinished sccIndex rto order nextOrder lowLink dfsStack sccStack]; fold ord'.
      destruct (push_spec ord' m (dfsStack s)) as (new & -> & Hnew & _). rewrite Hdfs.
      simpl. exists new, r. split; [reflexivity|]. split; [|split].
      + intros x Hx. apply Hnew in Hx as (Hx & y & Hy & Hr). split.
        * split; [exact Hm|]. exists y. auto.
        * rewrite Hordm, Hx. lia.
      + intros x (_ & y & Hy & Hr). destruct (Nat.eq_dec (ord' x) NV) as [E|E]; [|now left].
        right. apply Hnew. eauto.
      + destruct Hcase as [[-> ->]|[Hnn Hs]]; [reflexivity|].
        destruct gray as [|g gs]; [congruence|]. rewrite Hdfs in Hs.
        assert (g ∈ sccStack s) as Hgo by (apply (i_gray _ _ _ I); now left).
        destruct Hs as (pend & rest & He & H1 & H2 & H3).
        destruct pend as [|x pend]; simpl in He; injection He as -> ->; [contradiction|].
        exists pend, rest. split; [reflexivity|]. split; [|split].
        * intros y Hy. destruct (H1 y) as [He Hl]; [now right|]. split; [exact He|].
          rewrite (Hold g) by exact Hgo. destruct (Nat.eq_dec y x) as [->|]; [rewrite Hordm; auto|now rewrite Hne].
        * intros y He. destruct (Nat.eq_dec y x) as [->|Hyx]; [left; lia|]. rewrite Hne by exact Hyx.
          destruct (H2 y He) as [|Hy]; [now left|]. right. apply elem_of_cons in Hy as [|]; [congruence|assumption].
        * eapply stk_ok_mono; [| | |exact H3].
          -- intros g' Hg'. apply Hold, (i_gray _ _ _ I). now right.
          -- intros y Hy. destruct (Nat.eq_dec y x) as [->|Hyx]; [lia|]. now rewrite Hne.
          -- intros g' y Hg' Hl. destruct (Nat.eq_dec y x) as [->|Hyx].
             ++ rewrite Hordm. apply Hlow, (i_gray _ _ _ I). now right.
             ++ now rewrite Hne.
  Qed.

  Lemma relax_facts s gray par m :
    inv s gray par -> m ∈ sccStack s -> (forall x, edge m x -> order s x <> NV) ->
    let low' := relax MAX root succs (order s) m (lowLink s) in
    (forall u, u <> m -> low' u = lowLink s u) /\ low' m <= lowLink s m /\
    (forall x, edge m x -> x ∈ sccStack s -> low' m <= lowLink s x) /\
    (exists w, w ∈ sccStack s /\ low' m = order s w /\ order s w <= order s m /\ path m w).
  Proof.
    intros I Hm Hvis low'. destruct (relax_spec (order s) m (lowLink s)) as (H1 & H2 & H3 & H4).
    fold low' in H1, H2, H3, H4. split; [exact H1|]. split; [exact H2|]. split.
    - intros x (_ & y & Hy & <-) Hx. apply H3; [exact Hy|]. pose proof (open_lt _ _ _ I _ Hx). lia.
    - destruct (i_low _ _ _ I m Hm) as (w0 & Hw0 & Hl0 & Ho0 & Hp0).
      destruct H4 as [H4|(y & Hy & Hf & He)].
      + exists w0. rewrite H4. auto.
      + assert (edge m (root y)) as Hedge.
        { split; [|eauto]. apply (i_node _ _ _ I). pose proof (open_lt _ _ _ I _ Hm). lia. }
        pose proof (open_classify _ _ _ I (root y) (Hvis _ Hedge) Hf) as Hopen.
        destruct (i_low _ _ _ I _ Hopen) as (w & Hw & Hl & Ho & Hp).
        exists w. split; [exact Hw|]. split; [congruence|]. split; [lia|].
        eapply rtc_l; eassumption.
  Qed.

  Definition with_low (s : state) (low : nat -> nat) (rest : list nat) : state :=
    mk (sccsFinished s) (sccIndex s) (rto s) (order s) (nextOrder s) low rest (sccStack s).

  Ltac fields := cbn [sccsFinished sccIndex rto order nextOrder lowLink dfsStack sccStack].

  Lemma repost_inv s gray par m rest :
    inv s gray par -> m ∈ sccStack s -> m ∉ gray ->
    let low' := relax MAX root succs (order s) m (lowLink s) in
    low' m < order s m /\ inv (with_low s low' rest) gray par.
  Proof.
    intros I Hm Hg low'.
    destruct (relax_facts s gray par m I Hm) as (H1 & H2 & H3 & H4).
    { intros x He. apply (i_black _ _ _ I m); auto. pose proof (open_lt _ _ _ I _ Hm). lia. }
    fold low' in H1, H2, H3, H4.
    pose proof (i_blacklow _ _ _ I m Hm Hg) as Hb.
    split; [lia|]. destruct I. constructor; unfold with_low; fields; try assumption.
    - intros v Hv. destruct (Nat.eq_dec v m) as [->|Hvm]; [exact H4|]. rewrite H1 by assumption. auto.
    - intros v Hv Hgv. destruct (Nat.eq_dec v m) as [->|Hvm]; [lia|]. rewrite H1 by assumption. auto.
    - intros v y x Hv Hgv Hd Hy He Hx. specialize (i_desc0 v y x Hv Hgv Hd Hy He Hx).
      destruct (Nat.eq_dec v m) as [->|Hvm]; [lia|]. now rewrite H1.
  Qed.

  (** facts when the top gray node m is done *)
  Lemma post_facts s m gs par :
    inv s (m :: gs) par -> (forall x, edge m x -> order s x <> NV) ->
    let low' := relax MAX root succs (order s) m (lowLink s) in
    m ∈ sccStack s /\
    (forall u, u <> m -> low' u = lowLink s u) /\
    (exists w, w ∈ sccStack s /\ low' m = order s w /\ order s w <= order s m /\ path m w) /\
    (forall y x, desc par m y -> y ∈ sccStack s -> edge y x -> x ∈ sccStack s -> low' m <= order s x).
  Proof.
    intros I Hvis low'. assert (m ∈ sccStack s) as Hm by (apply (i_gray _ _ _ I); now left).
    destruct (relax_facts s _ par m I Hm Hvis) as (H1 & H2 & H3 & H4).
    fold low' in H1, H2, H3, H4. split; [exact Hm|]. split; [exact H1|]. split; [exact H4|].
    intros y x Hd Hy He Hx. destruct (desc_child _ _ _ I m y Hy Hd) as [->|(c & Hdc & Hc & Hp & Hec & Hlt)].
    - specialize (H3 x He Hx). destruct (i_low _ _ _ I x Hx) as (w & _ & Hl & Ho & _). lia.
    - specialize (H3 c Hec Hc). transitivity (lowLink s c); [exact H3|].
      eapply (i_desc _ _ _ I c y x); auto. intros Hg.
      pose proof (gray_top _ _ _ I m gs c eq_refl Hg). lia.
  Qed.

  Lemma post_inv_nonroot s m gs par rest :
    inv s (m :: gs) par -> (forall x, edge m x -> order s x <> NV) ->
    let low' := relax MAX root succs (order s) m (lowLink s) in
    low' m <> order s m -> inv (with_low s low' rest) gs par.
  Proof.
    intros I Hvis low' Hne.
    destruct (post_facts s m gs par I Hvis) as (Hm & H1 & H4 & H5). fold low' in H1, H4, H5.
    assert (m ∉ gs) as Hmgs.
    { intros H. apply elem_of_list_lookup in H as [i Hi].
      pose proof (i_graysorted _ _ _ I 0 (S i) m m ltac:(lia) eq_refl Hi). lia. }
    assert (low' m < order s m) as Hlt. { destruct H4 as (w & _ & E & Hle & _). lia. }
    assert (forall g, g ∈ gs -> order s g < order s m) as Hgs.
    { intros g Hg. apply elem_of_list_lookup in Hg as [i Hi].
      exact (i_graysorted _ _ _ I 0 (S i) m g ltac:(lia) eq_refl Hi). }
    destruct I. constructor; unfold with_low; fields; try assumption.
    - intros g Hg. apply i_gray0. now right.
    - intros i j v w Hij Hv Hw. eapply (i_graysorted0 (S i) (S j)); [lia|eassumption..].
    - intros g y Hg. apply i_gdesc0. now right.
    - intros g Hg. assert (g ∈ m :: gs) as Hg' by now right.
      destruct (i_pargray0 g Hg') as [|Hp]; [now left|]. right.
      apply elem_of_cons in Hp as [Hp|Hp]; [|exact Hp]. exfalso.
      destruct (i_par0 g (i_gray0 g Hg')) as [E|(_ & _ & E)]; specialize (Hgs g Hg).
      + rewrite Hp in E. rewrite E in Hgs. lia.
      + rewrite Hp in E. lia.
    - intros v x Hv Hg He. destruct (Nat.eq_dec v m) as [->|Hvm]; [auto|].
      eapply i_black0; [exact Hv| |exact He]. apply not_elem_of_cons. auto.
    - intros v Hv. destruct (Nat.eq_dec v m) as [->|Hvm]; [exact H4|]. rewrite H1 by assumption. auto.
    - intros v Hv Hg. destruct (Nat.eq_dec v m) as [->|Hvm]; [exact Hlt|]. rewrite H1 by assumption.
      apply i_blacklow0; [exact Hv|]. apply not_elem_of_cons. auto.
    - intros v y x Hv Hg Hd Hy He Hx. destruct (Nat.eq_dec v m) as [->|Hvm].
      + now apply (H5 y x).
      + rewrite H1 by assumption. eapply i_desc0; try eassumption. apply not_elem_of_cons. auto.
  Qed.

  Lemma whites_fin ord ord' :
    (forall v, ord' v = NV <-> ord v = NV) -> length (whites ord') = length (whites ord).
  Proof.
    intros H. unfold whites. f_equal. apply list_filter_iff. intros v. now rewrite H.
  Qed.

  Lemma post_inv_root s m gs par rest :
    inv s (m :: gs) par -> (forall x, edge m x -> order s x <> NV) ->
    let low' := relax MAX root succs (order s) m (lowLink s) in
    low' m = order s m ->
    exists stk ord idx r,
      pop_scc MAX m (sccsFinished s) (sccStack s) (order s) (sccIndex s) (rto s) = Some (stk, ord, idx, r) /\
      inv (mk (S (sccsFinished s)) idx r ord (nextOrder s) low' rest stk) gs par /\
      (forall g, g ∈ gs -> ord g = order s g) /\
      (forall x, ord x = NV <-> order s x = NV) /\
      (forall g x, g ∈ gs -> order s g < order s x -> order s g < ord x).
  Proof.
    intros I Hvis low' Hroot.
    destruct (post_facts s m gs par I Hvis) as (Hm & H1 & H4 & H5). fold low' in H1, H4, H5.
    assert (m ∉ gs) as Hmgs.
    { intros H. apply elem_of_list_lookup in H as [i Hi].
      pose proof (i_graysorted _ _ _ I 0 (S i) m m ltac:(lia) eq_refl Hi). lia. }
    assert (forall g, g ∈ gs -> order s g < order s m) as Hgs.
    { intros g Hg. apply elem_of_list_lookup in Hg as [i Hi].
      exact (i_graysorted _ _ _ I 0 (S i) m g ltac:(lia) eq_refl Hi). }
    destruct (elem_of_list_split_l _ _ Hm) as (A & B & Hscc & HmA).
    destruct (pop_scc_spec m (sccsFinished s) A B (order s) (sccIndex s) (rto s) HmA)
      as (ord & idx & Hpop & HS & HnS).
    rewrite <- Hscc in Hpop.
    (* the popped component *)
    assert (forall y, y ∈ sccStack s -> (y ∈ A ++ [m] <-> order s m <= order s y)) as HSord.
    { intros y Hy. assert (sccStack s !! length A = Some m) as Hlm.
      { rewrite Hscc. rewrite lookup_app_r by lia. now rewrite Nat.sub_diag. }
      split.
      - intros Hin. apply elem_of_app in Hin as [Hin|Hin].
        + apply elem_of_list_lookup in Hin as [i Hi]. pose proof (lookup_lt_Some _ _ _ Hi).
          assert (sccStack s !! i = Some y) as Hi' by (rewrite Hscc, lookup_app_l by lia; exact Hi).
          pose proof (i_sorted _ _ _ I i (length A) y m ltac:(lia) Hi' Hlm). lia.
        + apply elem_of_list_singleton in Hin as ->. lia.
      - intros Hle. destruct (decide (y ∈ A ++ [m])) as [|Hnin]; [assumption|]. exfalso.
        assert (y ∈ B) as HB.
        { rewrite Hscc in Hy. rewrite elem_of_app, elem_of_cons in Hy.
          rewrite elem_of_app, elem_of_list_singleton in Hnin. tauto. }
        apply elem_of_list_lookup in HB as [j Hj].
        assert (sccStack s !! (length A + S j) = Some y) as Hj'.
        { rewrite Hscc. rewrite lookup_app_r by lia. replace (_ - _) with (S j) by lia. exact Hj. }
        pose proof (i_sorted _ _ _ I (length A) (length A + S j) m y ltac:(lia) Hlm Hj'). lia. }
    assert (forall y, y ∈ A ++ [m] -> y ∈ sccStack s) as HSopen.
    { intros y Hy. rewrite Hscc. rewrite elem_of_app, elem_of_list_singleton in Hy. rewrite elem_of_app, elem_of_cons. tauto. }
    assert (forall y, y ∈ B -> y ∈ sccStack s) as HBopen.
    { intros y Hy. rewrite Hscc. rewrite elem_of_app, elem_of_cons. auto. }
    assert (forall y, y ∈ B -> y ∉ A ++ [m]) as HBS.
    { intros y Hy Hs. apply elem_of_list_lookup in Hy as [j Hj]. pose proof Hs as Hs'. apply HSord in Hs'; [|now apply HSopen].
      assert (sccStack s !! length A = Some m) as Hlm.
      { rewrite Hscc. rewrite lookup_app_r by lia. now rewrite Nat.sub_diag. }
      assert (sccStack s !! (length A + S j) = Some y) as Hj'.
      { rewrite Hscc. rewrite lookup_app_r by lia. replace (_ - _) with (S j) by lia. exact Hj. }
      pose proof (i_sorted _ _ _ I (length A) (length A + S j) m y ltac:(lia) Hlm Hj'). lia. }
    assert (forall y, y ∈ sccStack s -> y ∉ A ++ [m] -> y ∈ B) as HopenB.
    { intros y Hy Hnin. rewrite Hscc in Hy. rewrite elem_of_app, elem_of_cons in Hy.
      rewrite elem_of_app, elem_of_list_singleton in Hnin. tauto. }
    assert (m ∈ A ++ [m]) as HmS by (apply elem_of_app; right; now left).
    (* closed: successors of the component are in it or finished *)
    assert (forall y x, y ∈ A ++ [m] -> edge y x -> x ∈ A ++ [m] \/ order s x = FIN) as Hclosed.
    { intros y x Hy He. pose proof (HSopen y Hy) as Hyo. pose proof (proj1 (HSord y Hyo) Hy) as Hyle.
      assert (order s x <> NV) as Hxv.
      { destruct (Nat.eq_dec y m) as [->|Hym]; [auto|]. apply (i_black _ _ _ I y); auto.
        - pose proof (open_lt _ _ _ I y Hyo). lia.
        - intros Hg. apply elem_of_cons in Hg as [|Hg]; [congruence|]. specialize (Hgs y Hg). lia. }
      destruct (Nat.eq_dec (order s x) FIN) as [|HxF]; [now right|]. left.
      pose proof (open_classify _ _ _ I x Hxv HxF) as Hxo. apply HSord; [exact Hxo|].
      rewrite <- Hroot. apply (H5 y x); auto. apply (i_gdesc _ _ _ I); auto. now left. }
    (* m reaches the whole component, and is reached from it *)
    assert (forall y, y ∈ A ++ [m] -> path m y) as Hfrom.
    { intros y Hy. pose proof (HSopen y Hy) as Hyo. apply (desc_open _ _ _ I); [exact Hyo|].
      apply (i_gdesc _ _ _ I); [now left|exact Hyo|]. now apply HSord. }
    assert (forall z y, path y z -> y ∈ A ++ [m] -> z ∈ A ++ [m] \/ order s z = FIN) as Hclos2.
    { intros z y Hp. unfold path in Hp. induction Hp as [y|y u z He Hp IH]; [auto|]. intros Hy.
      destruct (Hclosed y u Hy He) as [Hu|Hu]; [auto|]. right. clear IH He Hy.
      induction Hp as [u|u u' z He Hp IH]; [exact Hu|]. apply IH. now apply (i_fin _ _ _ I u u' Hu He). }
    assert (forall k y, y ∈ A ++ [m] -> order s y <= k -> path y m) as Hto.
    { induction k as [|k IH]; intros y Hy Hk.
      - assert (order s m <= order s y) by (now apply HSord; [apply HSopen|]).
        assert (y = m) as ->; [|apply rtc_refl]. apply (order_inj _ _ _ I); auto. lia.
      - destruct (Nat.eq_dec y m) as [->|Hym]; [apply rtc_refl|].
        assert (order s m <= order s y) by (now apply HSord; [apply HSopen|]).
        assert (y ∉ m :: gs) as Hyg.
        { apply not_elem_of_cons. split; [exact Hym|]. intros Hg. specialize (Hgs y Hg). lia. }
        pose proof (i_blacklow _ _ _ I y (HSopen y Hy) Hyg) as Hbl.
        destruct (i_low _ _ _ I y (HSopen y Hy)) as (w & Hw & Hl & Ho & Hp).
        transitivity w; [exact Hp|]. apply IH; [|lia].
        destruct (Hclos2 w y Hp Hy) as [|HF]; [assumption|]. pose proof (open_lt _ _ _ I w Hw). lia. }
    assert (forall x, ord x = FIN <-> order s x = FIN \/ x ∈ A ++ [m]) as Hfin.
    { intros x. destruct (decide (x ∈ A ++ [m])) as [Hi|Hi].
      - split; [auto|]. intros _. now apply HS.
      - destruct (HnS x Hi) as [-> _]. tauto. }
    assert (forall x, order s x = FIN -> x ∉ A ++ [m]) as HFS.
    { intros x Hx Hs. pose proof (open_lt _ _ _ I x (HSopen x Hs)). lia. }
    assert (forall x, ord x = NV <-> order s x = NV) as Hnv.
    { intros x. pose proof FIN_NV. destruct (decide (x ∈ A ++ [m])) as [Hi|Hi].
      - destruct (HS x Hi) as [-> _]. pose proof (open_lt _ _ _ I x (HSopen x Hi)). split; [congruence|lia].
      - destruct (HnS x Hi) as [-> _]. tauto. }
    assert (forall x, x ∈ B -> ord x = order s x) as HordB.
    { intros x Hx. apply HnS. now apply HBS. }
    assert (forall g, g ∈ gs -> g ∈ B) as HgB.
    { intros g Hg. apply HopenB; [apply (i_gray _ _ _ I); now right|]. intros Hs.
      apply HSord in Hs; [|now apply HSopen]. specialize (Hgs g Hg). lia. }
    exists B, ord, idx, (rto s ++ A ++ [m]). split; [exact Hpop|]. split; [constructor; fields|].
    - rewrite (whites_fin (order s) ord Hnv). apply (i_next _ _ _ I).
    - intros v. destruct (decide (v ∈ A ++ [m])) as [Hi|Hi].
      + right. left. now apply HS.
      + destruct (HnS v Hi) as [-> _]. apply (i_class _ _ _ I).
    - intros v. split.
      + intros Hv. rewrite HordB by assumption. apply (i_open _ _ _ I). auto.
      + intros Hlt. pose proof (next_le _ _ _ I) as Hnl. destruct (decide (v ∈ A ++ [m])) as [Hi|Hi].
        * destruct (HS v Hi) as [E _]. lia.
        * destruct (HnS v Hi) as [E _]. apply HopenB; [|exact Hi]. apply (i_open _ _ _ I). lia.
    - intros i j v w Hij Hv Hw. rewrite !HordB by (eapply elem_of_list_lookup_2; eassumption).
      apply (i_sorted _ _ _ I (length A + S i) (length A + S j)); [lia| |];
        rewrite Hscc, lookup_app_r by lia.
      + replace (_ - _) with (S i) by lia. exact Hv.
      + replace (_ - _) with (S j) by lia. exact Hw.
    - intros v Hv. apply (i_node _ _ _ I). now rewrite <- Hnv.
    - exact HgB.
    - intros i j v w Hij Hv Hw. rewrite !HordB by (apply HgB; eapply elem_of_list_lookup_2; eassumption).
      apply (i_graysorted _ _ _ I (S i) (S j)); [lia|assumption..].
    - intros v Hv. destruct (i_par _ _ _ I v (HBopen v Hv)) as [|(He & Ho & Hlt)]; [now left|]. right.
      split; [exact He|]. assert (par v ∈ B) as HpB.
      { apply HopenB; [exact Ho|]. intros Hs. apply HSord in Hs; [|exact Ho].
        apply (HBS v Hv). apply HSord; [auto|lia]. }
      split; [exact HpB|]. now rewrite !HordB.
    - intros g y Hg Hy. rewrite !HordB by auto. apply (i_gdesc _ _ _ I); [now right|auto].
    - intros g Hg. assert (g ∈ m :: gs) as Hg' by now right.
      destruct (i_pargray _ _ _ I g Hg') as [|Hp]; [now left|]. right.
      apply elem_of_cons in Hp as [Hp|Hp]; [|exact Hp]. exfalso.
      destruct (i_par _ _ _ I g (i_gray _ _ _ I g Hg')) as [E|(_ & _ & E)]; specialize (Hgs g Hg).
      + rewrite Hp in E. rewrite E in Hgs. lia.
      + rewrite Hp in E. lia.
    - intros v x Hv Hg He. rewrite Hnv in Hv |- *. destruct (Nat.eq_dec v m) as [->|Hvm]; [auto|].
      eapply (i_black _ _ _ I); [exact Hv| |exact He]. apply not_elem_of_cons. auto.
    - intros v x Hv He. apply Hfin in Hv as [Hv|Hv].
      + destruct (i_fin _ _ _ I v x Hv He) as [HxF Hle]. split; [apply Hfin; now left|].
        destruct (HnS v (HFS v Hv)) as [_ ->]. destruct (HnS x (HFS x HxF)) as [_ ->]. exact Hle.
      + destruct (HS v Hv) as [_ ->]. destruct (Hclosed v x Hv He) as [Hx|Hx].
        * split; [now apply HS|]. destruct (HS x Hx) as [_ ->]. lia.
        * split; [apply Hfin; now left|]. destruct (HnS x (HFS x Hx)) as [_ ->].
          pose proof (i_bound _ _ _ I x Hx). lia.
    - intros v Hv. assert (v <> m) by (intros ->; exact (HBS m Hv HmS)). rewrite H1 by assumption.
      destruct (i_low _ _ _ I v (HBopen v Hv)) as (w & Hw & Hl & Ho & Hp). exists w.
      assert (w ∈ B) as HwB.
      { apply HopenB; [exact Hw|]. intros Hs. apply HSord in Hs; [|exact Hw].
        apply (HBS v Hv). apply HSord; [auto|lia]. }
      split; [exact HwB|]. rewrite !HordB by assumption. auto.
    - intros v Hv Hg. assert (v <> m) by (intros ->; exact (HBS m Hv HmS)). rewrite H1 by assumption.
      rewrite HordB by assumption. apply (i_blacklow _ _ _ I); [auto|]. apply not_elem_of_cons. auto.
    - intros v y x Hv Hg Hd Hy He Hx. assert (v <> m) by (intros ->; exact (HBS m Hv HmS)).
      rewrite H1 by assumption. rewrite HordB by assumption.
      eapply (i_desc _ _ _ I v y x); auto. apply not_elem_of_cons. auto.
    - intros v w Hv Hw He. apply Hfin in Hv, Hw.
      destruct Hv as [Hv|Hv], Hw as [Hw|Hw].
      + rewrite (proj2 (HnS v (HFS v Hv))), (proj2 (HnS w (HFS w Hw))) in He. now apply (i_scc _ _ _ I).
      + rewrite (proj2 (HnS v (HFS v Hv))), (proj2 (HS w Hw)) in He. pose proof (i_bound _ _ _ I v Hv). lia.
      + rewrite (proj2 (HS v Hv)), (proj2 (HnS w (HFS w Hw))) in He. pose proof (i_bound _ _ _ I w Hw). lia.
      + transitivity m; [eapply Hto; eauto|auto].
    - intros v Hv. apply Hfin in Hv as [Hv|Hv].
      + rewrite (proj2 (HnS v (HFS v Hv))). pose proof (i_bound _ _ _ I v Hv). lia.
      + rewrite (proj2 (HS v Hv)). lia.
    - intros i Hi. destruct (Nat.eq_dec i (sccsFinished s)) as [->|Hne].
      + exists m. split; [now apply HS|]. now apply HS.
      + destruct (i_onto _ _ _ I i ltac:(lia)) as (v & Hv & He). exists v.
        split; [apply Hfin; now left|]. now rewrite (proj2 (HnS v (HFS v Hv))).
    - intros v. rewrite elem_of_app, (i_rto _ _ _ I), Hfin. reflexivity.
    - apply NoDup_app. split; [apply (i_nodup _ _ _ I)|]. split.
      + intros x Hx. apply HFS. now apply (i_rto _ _ _ I).
      + apply NoDup_alt. intros i j x Hi Hj.
        assert (forall i, (A ++ [m]) !! i = Some x -> sccStack s !! i = Some x) as HH.
        { intros i' Hi'. rewrite Hscc. change (m :: B) with ([m] ++ B). rewrite app_assoc.
          rewrite lookup_app_l; [exact Hi'|]. eapply lookup_lt_Some, Hi'. }
        apply HH in Hi, Hj. destruct (lt_eq_lt_dec i j) as [[H|H]|H]; [|exact H|].
        * pose proof (i_sorted _ _ _ I _ _ _ _ H Hi Hj). lia.
        * pose proof (i_sorted _ _ _ I _ _ _ _ H Hj Hi). lia.
    - intros i j v w Hij Hv Hw. apply lookup_app_Some in Hv as [Hv|[Hl Hv]];
        apply lookup_app_Some in Hw as [Hw|[Hl' Hw]].
      + assert (order s v = FIN) as HvF by (apply (i_rto _ _ _ I); eapply elem_of_list_lookup_2, Hv).
        assert (order s w = FIN) as HwF by (apply (i_rto _ _ _ I); eapply elem_of_list_lookup_2, Hw).
        rewrite (proj2 (HnS v (HFS v HvF))), (proj2 (HnS w (HFS w HwF))).
        now apply (i_rtosorted _ _ _ I i j).
      + assert (order s v = FIN) as HvF by (apply (i_rto _ _ _ I); eapply elem_of_list_lookup_2, Hv).
        rewrite (proj2 (HnS v (HFS v HvF))). apply elem_of_list_lookup_2 in Hw. rewrite (proj2 (HS w Hw)).
        pose proof (i_bound _ _ _ I v HvF). lia.
      + apply lookup_lt_Some in Hw. lia.
      + apply elem_of_list_lookup_2 in Hv, Hw. rewrite (proj2 (HS v Hv)), (proj2 (HS w Hw)). lia.
    - intros v Hv. rewrite Hfin in Hv. assert (v ∉ A ++ [m]) as Hi by tauto.
      rewrite (proj2 (HnS v Hi)). apply (i_frame _ _ _ I). tauto.
    - split; [intros g Hg; apply HordB; auto|]. split; [exact Hnv|].
      intros g x Hg Hlt. destruct (decide (x ∈ A ++ [m])) as [Hi|Hi].
      + rewrite (proj1 (HS x Hi)). pose proof (open_lt _ _ _ I g (HBopen g (HgB g Hg))). lia.
      + now rewrite (proj1 (HnS x Hi)).
  Qed.

  (** ** termination measure *)
  Definition wsum (ord : nat -> nat) : nat := sum_list_with (fun v => S (length (succs v))) (whites ord).
  Definition mu (s : state) : nat := wsum (order s) + length (dfsStack s).

  Lemma wsum_upd ord m k :
    node m -> ord m = NV -> k <> NV -> wsum ord = S (length (succs m)) + wsum (upd ord m k).
  Proof.
    intros [Hm Hr] Ho Hk. unfold wsum, whites.
    assert (m ∈ seq 0 n) as Hin by (apply elem_of_seq; lia).
    pose proof (NoDup_seq 0 n) as Hnd. revert Hin Hnd. generalize (seq 0 n) as l.
    induction l as [|a l IH]; intros Hin Hnd; [inversion Hin|].
    apply NoDup_cons in Hnd as [Ha Hnd]. rewrite !filter_cons.
    destruct (decide (a = m)) as [->|Hne].
    - rewrite decide_True by auto. rewrite decide_False by (rewrite upd_same; tauto).
      cbn [sum_list_with]. f_equal. f_equal. clear IH Hin Hnd. induction l as [|b l IH]; [reflexivity|].
      rewrite !filter_cons. apply not_elem_of_cons in Ha as [Hb Ha].
      rewrite (upd_other _ _ _ b) by auto.
      destruct (decide (root b = b /\ ord b = NV)); rewrite IH by assumption; reflexivity.
    - apply elem_of_cons in Hin as [->|Hin]; [congruence|]. rewrite (upd_other _ _ _ a) by auto.
      destruct (decide (root a = a /\ ord a = NV)); cbn [sum_list_with]; rewrite IH by assumption; lia.
  Qed.
  Lemma wsum_fin ord ord' :
    (forall v, ord' v = NV <-> ord v = NV) -> wsum ord' = wsum ord.
  Proof.
    intros H. unfold wsum, whites. f_equal. apply list_filter_iff. intros v. now rewrite H.
  Qed.
  Lemma wsum_le ord : wsum ord <= sum_list_with (fun v => S (length (succs v))) (seq 0 n).
  Proof.
    unfold wsum, whites. generalize (seq 0 n) as l. induction l as [|a l IH]; [reflexivity|].
    rewrite filter_cons. destruct (decide _); cbn [sum_list_with]; lia.
  Qed.

  Definition mono (s s' : state) : Prop := forall x, order s x <> NV -> order s' x <> NV.

  Lemma visit_mu s m r :
    node m -> order s m = NV -> nextOrder s <> NV -> dfsStack s = m :: r ->
    mu (first_visit MAX root succs s m) < mu s /\ mono s (first_visit MAX root succs s m).
  Proof.
    intros Hm Hw Hk Hdfs. split.
    - unfold mu, first_visit; fields.
      destruct (push_spec (upd (order s) m (nextOrder s)) m (dfsStack s)) as (new & -> & _ & Hlen).
      rewrite app_length. rewrite (wsum_upd (order s) m (nextOrder s)) by assumption. lia.
    - intros x Hx. unfold first_visit; fields. destruct (Nat.eq_dec x m) as [->|]; [congruence|now rewrite upd_other].
  Qed.

  Lemma next_lt_NV s gray par : inv s gray par -> nextOrder s <> NV.
  Proof. intros I. pose proof (i_next _ _ _ I). unfold NOT_VISITED. lia. Qed.

  Lemma step_inv s gray par m r :
    inv s gray par -> stk_ok (order s) gray (dfsStack s) -> dfsStack s = m :: r ->
    exists s', step MAX root succs s m r = Some s' /\ mu s' < mu s /\ mono s s' /\
      exists gray' par', inv s' gray' par' /\ stk_ok (order s') gray' (dfsStack s').
  Proof.
    intros I Hs Hdfs. destruct gray as [|g gs]; [simpl in Hs; congruence|].
    assert (g ∈ sccStack s) as Hgo by (apply (i_gray _ _ _ I); now left).
    pose proof Hs as Hs'. destruct Hs' as (pend & rest & He & H1 & H2 & H3). rewrite Hdfs in He.
    unfold step.
    destruct (Nat.eqb_spec (order s m) NV) as [Hw|Hw].
    - assert (node m) as Hm.
      { destruct pend as [|x pend]; simpl in He; injection He as -> ->.
        - pose proof (open_lt _ _ _ I g Hgo). lia.
        - destruct (H1 x) as [Hx _]; [now left|]. eapply edge_node, Hx. }
      pose proof (next_lt_NV _ _ _ I) as Hk.
      destruct (visit_mu s m r Hm Hw Hk Hdfs) as [Hmu Hmono].
      destruct (visit_inv s (g :: gs) par m r I Hm Hw Hdfs) as (gray' & par' & I' & Hs').
      { right. split; [discriminate|exact Hs]. }
      eexists. split; [reflexivity|]. split; [exact Hmu|]. split; [exact Hmono|]. exists gray', par'. auto.
    - destruct pend as [|x pend]; simpl in He; injection He as -> ->.
      + (* the gray node itself *)
        assert (forall x, edge g x -> order s x <> NV) as Hvis.
        { intros x Hx. destruct (H2 x Hx) as [|Hp]; [assumption|inversion Hp]. }
        destruct (Nat.eqb_spec (order s g) FIN) as [HF|HF].
        { pose proof (open_lt _ _ _ I g Hgo). lia. }
        unfold post_visit.
        destruct (Nat.eqb_spec (relax MAX root succs (order s) g (lowLink s) g) (order s g)) as [Hr|Hr].
        * destruct (post_inv_root s g gs par rest I Hvis Hr) as (stk & ord & idx & r & -> & I' & Ha & Hb & Hc).
          eexists. split; [reflexivity|].
          split.
          { unfold mu; fields. rewrite (wsum_fin (order s) ord Hb), Hdfs. simpl. lia. }
          split; [intros x; fields; now rewrite Hb|]. exists gs, par. split; [exact I'|]. fields.
          eapply stk_ok_mono; try eassumption. intros x. now rewrite Hb.
        * eexists. split; [reflexivity|]. split.
          { unfold mu; fields. rewrite Hdfs. simpl. lia. }
          split; [intros x Hx; exact Hx|]. exists gs, par. split; [|exact H3].
          now apply post_inv_nonroot.
      + (* a pending entry *)
        assert (stk_ok (order s) (g :: gs) (pend ++ g :: rest)) as Hs''.
        { exists pend, rest. split; [reflexivity|]. split; [|split; [|exact H3]].
          - intros y Hy. apply H1. now right.
          - intros y Hy. destruct (H2 y Hy) as [|Hp]; [now left|].
            apply elem_of_cons in Hp as [->|]; [now left|now right]. }
        destruct (Nat.eqb_spec (order s x) FIN) as [HF|HF].
        * eexists. split; [reflexivity|]. split.
          { unfold mu; fields. rewrite Hdfs. simpl. lia. }
          split; [intros y Hy; exact Hy|]. exists (g :: gs), par. split; [|exact Hs''].
          destruct I. constructor; fields; assumption.
        * assert (x ∈ sccStack s) as Hxo by (eapply open_classify; eassumption).
          assert (x ∉ g :: gs) as Hxg.
          { intros Hg. pose proof (gray_top _ _ _ I g gs x eq_refl Hg).
            destruct (H1 x) as [_ Hlt]; [now left|]. lia. }
          destruct (repost_inv s (g :: gs) par x (pend ++ g :: rest) I Hxo Hxg) as [Hlt I'].
          unfold post_visit.
          destruct (Nat.eqb_spec (relax MAX root succs (order s) x (lowLink s) x) (order s x)) as [Hr|Hr]; [lia|].
          eexists. split; [reflexivity|]. split.
          { unfold mu; fields. rewrite Hdfs. simpl. lia. }
          split; [intros y Hy; exact Hy|]. exists (g :: gs), par. split; [exact I'|exact Hs''].
  Qed.

  Definition done (s : state) : Prop := dfsStack s = [] /\ exists par, inv s [] par.

  Lemma loop_inv fuel s gray par :
    mu s <= fuel -> inv s gray par -> stk_ok (order s) gray (dfsStack s) ->
    exists s', loop MAX root succs fuel s = Some s' /\ mono s s' /\ done s'.
  Proof.
    revert s gray par. induction fuel as [|fuel IH]; intros s gray par Hmu I Hs.
    - simpl. destruct (dfsStack s) as [|m r] eqn:E.
      + exists s. split; [reflexivity|]. split; [intros x Hx; exact Hx|]. split; [exact E|]. exists par.
        destruct gray as [|g gs]; [exact I|]. destruct Hs as (pend & rest & He & _). destruct pend; discriminate.
      + unfold mu in Hmu. rewrite E in Hmu. simpl in Hmu. lia.
    - simpl. destruct (dfsStack s) as [|m r] eqn:E.
      + exists s. split; [reflexivity|]. split; [intros x Hx; exact Hx|]. split; [exact E|]. exists par.
        destruct gray as [|g gs]; [exact I|]. destruct Hs as (pend & rest & He & _). destruct pend; discriminate.
      + rewrite <- E in Hs. destruct (step_inv s gray par m r I Hs E) as (s' & -> & Hlt & Hm & gray' & par' & I' & Hs').
        destruct (IH s' gray' par') as (s'' & -> & Hm' & Hd); [lia|exact I'|exact Hs'|].
        exists s''. split; [reflexivity|]. split; [|exact Hd]. intros x Hx. apply Hm', Hm, Hx.
  Qed.

  Lemma start_inv s v :
    done s -> v < n ->
    exists s', start MAX root succs (fuel n succs) (Some s) v = Some s' /\ mono s s' /\ done s' /\
      (node v -> order s' v <> NV).
  Proof.
    intros [Hdfs [par I]] Hv. unfold start.
    destruct (Nat.eqb_spec (root v) v) as [Hr|Hr]; simpl.
    2:{ exists s. split; [reflexivity|]. split; [intros x Hx; exact Hx|]. split; [split; eauto|].
        intros [_ Hr']. contradiction. }
    destruct (Nat.eqb_spec (order s v) NV) as [Ho|Ho]; simpl.
    2:{ exists s. split; [reflexivity|]. split; [intros x Hx; exact Hx|]. split; [split; eauto|]. auto. }
    rewrite Hdfs. set (s0 := mk _ _ _ _ _ _ _ _).
    assert (inv s0 [] par) as I0 by (destruct I; constructor; fields; assumption).
    assert (node v) as Hn' by (split; assumption).
    assert (nextOrder s <> NV) as Hk by (eapply next_lt_NV; exact I).
    destruct (visit_mu s0 v [] Hn' Ho Hk eq_refl) as [Hmu Hmono].
    destruct (visit_inv s0 [] par v [] I0 Hn' Ho eq_refl) as (gray' & par' & I' & Hs'); [left; auto|].
    set (s1 := first_visit MAX root succs s0 v) in *.
    assert (mu s1 <= sum_list_with (fun v => S (length (succs v))) (seq 0 n)) as Hmu1.
    { pose proof (wsum_le (order s0)). unfold mu in Hmu at 2. simpl in Hmu. simpl in H. lia. }
    destruct (loop_inv _ s1 gray' par' Hmu1 I' Hs') as (s' & He & Hm & Hd).
    exists s'. split.
    - unfold fuel. cbn [loop]. change (dfsStack s0) with [v]. cbv iota. unfold step.
      change (order s0 v) with (order s v).
      rewrite Ho, Nat.eqb_refl. fold s1. exact He.
    - split; [|split; [exact Hd|]].
      + intros x Hx. apply Hm, Hmono. exact Hx.
      + intros _. apply Hm. unfold s1, first_visit; fields. rewrite upd_same. exact Hk.
  Qed.

  Lemma init_inv : done (init MAX idx0).
  Proof.
    split; [reflexivity|]. exists (fun v => v).
    assert (forall (P : Prop) x, x ∈ @nil nat -> P) as Hnil by (intros P x Hx; inversion Hx).
    constructor; unfold init; fields; try (intros; congruence); try (intros; eapply Hnil; eassumption).
    - transitivity (length (seq 0 n)); [|now rewrite seq_length]. unfold whites. simpl.
      apply filter_length.
    - now left.
    - intros v. split; [apply Hnil|lia].
    - intros i j v w _ Hv. rewrite lookup_nil in Hv. discriminate.
    - intros i j v w _ Hv. rewrite lookup_nil in Hv. discriminate.
    - intros v x Hv. symmetry in Hv. now apply FIN_NV in Hv.
    - intros v w Hv. symmetry in Hv. now apply FIN_NV in Hv.
    - intros v Hv. symmetry in Hv. now apply FIN_NV in Hv.
    - intros i Hi. lia.
    - intros v. split; [apply Hnil|]. intros Hv. symmetry in Hv. now apply FIN_NV in Hv.
    - apply NoDup_nil_2.
    - intros i j v w _ Hv. rewrite lookup_nil in Hv. discriminate.
  Qed.

  Lemma run_inv :
    exists s, run n MAX root succs idx0 = Some s /\ done s /\ forall v, node v -> order s v <> NV.
  Proof.
    unfold run.
    assert (forall l s, (forall v, v ∈ l -> v < n) -> done s ->
      exists s', fold_left (start MAX root succs (fuel n succs)) l (Some s) = Some s' /\ mono s s' /\ done s' /\
        (forall v, v ∈ l -> node v -> order s' v <> NV)) as H.
    { induction l as [|v l IH]; intros s Hl Hd.
      - exists s. split; [reflexivity|]. split; [intros x Hx; exact Hx|]. split; [exact Hd|].
        intros v Hv. inversion Hv.
      - destruct (start_inv s v Hd) as (s1 & He & Hm & Hd1 & Hv); [apply Hl; now left|].
        destruct (IH s1) as (s2 & He2 & Hm2 & Hd2 & Hv2); [intros; apply Hl; now right|exact Hd1|].
        exists s2. cbn [fold_left]. rewrite He, He2. split; [reflexivity|].
        split; [intros x Hx; apply Hm2, Hm, Hx|]. split; [exact Hd2|].
        intros w Hw Hnw. apply elem_of_cons in Hw as [->|Hw]; [apply Hm2, Hv, Hnw|auto]. }
    destruct (H (seq 0 n) (init MAX idx0)) as (s & He & _ & Hd & Hv).
    - intros v Hv. apply elem_of_seq in Hv. lia.
    - exact init_inv.
    - exists s. split; [exact He|]. split; [exact Hd|]. intros v Hnv. apply Hv; [|exact Hnv].
      apply elem_of_seq. destruct Hnv. lia.
  Qed.

  Lemma run_correct :
    exists s, run n MAX root succs idx0 = Some s /\
      scc_result n root succs (sccsFinished s) (sccIndex s) (rto s) idx0.
  Proof.
    destruct run_inv as (s & He & (Hdfs & par & I) & Hall). exists s. split; [exact He|].
    assert (sccStack s = []) as Hempty.
    { destruct (sccStack s) as [|v0 l0] eqn:E; [reflexivity|]. exfalso.
      assert (forall k v, order s v < k -> v ∈ sccStack s -> False) as HH.
      { induction k as [|k IH]; intros v Hlt Hv; [lia|].
        pose proof (i_blacklow _ _ _ I v Hv (not_elem_of_nil _)) as Hb.
        destruct (i_low _ _ _ I v Hv) as (w & Hw & Hl & _). apply (IH w); [lia|exact Hw]. }
      apply (HH (S (order s v0)) v0); [lia|]. rewrite E. now left. }
    assert (forall v, node v <-> order s v = FIN) as HF.
    { intros v. split.
      - intros Hv. destruct (Nat.eq_dec (order s v) FIN) as [|Hf]; [assumption|]. exfalso.
        pose proof (open_classify _ _ _ I v (Hall v Hv) Hf) as Ho. rewrite Hempty in Ho. inversion Ho.
      - intros Hv. apply (i_node _ _ _ I). pose proof FIN_NV. congruence. }
    assert (forall v w, edge v w -> sccIndex s w <= sccIndex s v) as Hedge.
    { intros v w Hvw. apply (i_fin _ _ _ I v w); [|exact Hvw]. apply HF. eapply edge_src, Hvw. }
    assert (forall v w, path v w -> sccIndex s w <= sccIndex s v) as Hpath.
    { intros v w Hp. unfold path in Hp. induction Hp as [v|v u w Hvu Hp IH]; [lia|].
      specialize (Hedge v u Hvu). lia. }
    constructor.
    - intros v Hv. apply (i_bound _ _ _ I). now apply HF.
    - intros i Hi. destruct (i_onto _ _ _ I i Hi) as (v & Hv & Hi'). exists v. split; [now apply HF|exact Hi'].
    - intros v w Hv Hw. apply HF in Hv, Hw. split.
      + intros Heq. split; now apply (i_scc _ _ _ I).
      + intros [H1 H2]. apply Hpath in H1, H2. lia.
    - exact Hedge.
    - intros v. rewrite (i_rto _ _ _ I). symmetry. apply HF.
    - apply (i_nodup _ _ _ I).
    - apply (i_rtosorted _ _ _ I).
    - intros v Hv. apply (i_frame _ _ _ I). intros HvF. apply Hv. now apply HF.
  Qed.
End Proofs.
