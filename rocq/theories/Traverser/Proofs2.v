(** more steps of the tracker: the waiting end of an edge changes, nodes are
    visited, created and destroyed *)
From stdpp Require Import base list gmap.
From Verif.Region Require Import Model.
From Verif.Traverser Require Import Model Proofs.

Lemma active_sb t t' f : same_behind t t' -> active t' f <-> active t f.
Proof. intros H. destruct f as [m|]; simpl; [apply H|tauto]. Qed.
Lemma sb_refl t : same_behind t t.
Proof. intros m. reflexivity. Qed.
Lemma sb_trans t u v : same_behind t u -> same_behind u v -> same_behind t v.
Proof. intros A B m. now rewrite (B m), (A m). Qed.

Section Steps.
  Context (b : bool) (N : ptr -> Prop).

  (** an edge gets another waiting node *)
  Lemma TI_change_to E t i f w w' : TI b E N t -> E !! i = Some (f, w) -> (forall n, w = Some n -> N n) -> (forall n, w' = Some n -> N n) ->
    let E' := <[i := (f, w')]> E in
    let t1 := match w with None => t | Some n => if decide (active t f) then dec_activation n (deg E' n) t else check_activation n (deg E' n) t end in
    TI b E' N (match w' with None => t1 | Some n => if decide (active t f) then inc_activation n (deg E' n) t1 else check_deactivation n (deg E' n) t1 end).
  Proof.
    intros HT Hi Hw Hw' E' t1. destruct (decide (w = w')) as [<-|Hne].
    - assert (E' = E) as HE by (unfold E'; now rewrite insert_id by assumption). destruct w as [n|]; [|rewrite HE; exact HT].
      unfold t1. rewrite HE. clear t1. clearbody E'. clear E' HE. destruct HT as [F L C R A]. destruct (decide (active t f)) as [Da|Da].
      + destruct (dec_spec n (deg E n) t F) as (F1 & C1 & S1). pose proof (sb_dec n (deg E n) t F) as SB1. cbv zeta in *. set (t1 := dec_activation n (deg E n) t) in *.
        destruct (inc_spec n (deg E n) t1 F1) as (F2 & C2 & S2). pose proof (sb_inc n (deg E n) t1 F1) as SB2. cbv zeta in *. set (t2 := inc_activation n (deg E n) t1) in *.
        assert (0 < cnt E t n) as Hpos. { rewrite (cnt_delete _ _ _ _ _ _ Hi), decide_True by auto. lia. }
        assert (forall m, ct t2 m = ct t m) as C3.
        { intros m. rewrite C2. cased Q; [|rewrite C1, decide_False by assumption; reflexivity]. subst m. rewrite C1, (decide_True (P := n = n)), C by reflexivity. lia. }
        assert (forall m, cnt E t2 m = cnt E t m) as K by (intros m; apply cnt_ext, (sb_trans _ t1); assumption).
        assert (forall m, m <> n -> st t2 m = st t m) as S3. { intros m Hm. rewrite S2, decide_False by tauto. rewrite S1, decide_False by tauto. reflexivity. }
        assert (S (ct t1 n) = ct t n) as Cn. { rewrite C1, decide_True by reflexivity. rewrite C. lia. }
        assert (st t n = Frontier -> st t2 n = Frontier) as S4.
        { intros Q. rewrite S2. specialize (R n Q). rewrite <- C in R. cased D; [reflexivity|]. rewrite S1, decide_False; [assumption|]. intros (_ & D1 & _). apply D. split; [reflexivity|]. split; [lia|].
          rewrite S1, decide_True by auto. reflexivity. }
        assert (st t2 n = Frontier -> deg E n <= cnt E t n) as S5.
        { rewrite S2. cased D; [intros _; rewrite <- C; lia|]. rewrite S1. cased D1; [discriminate|]. apply R. }
        assert (st t2 n = Ahead -> cnt E t n < deg E n) as S6.
        { rewrite S2. cased D; [discriminate|]. intros Q. rewrite <- C. destruct (decide (deg E n <= ct t n)); [exfalso; apply D; split; [reflexivity|split; [lia|assumption]]|lia]. }
        constructor; [assumption| | | |].
        * intros m Hm. destruct (decide (m = n)) as [->|Hd]; [auto|]. rewrite S3 in Hm by assumption. auto.
        * intros m. rewrite K, C3. apply C.
        * intros m. rewrite K. destruct (decide (m = n)) as [->|Hd]; [exact S5|]. rewrite S3 by assumption. apply R.
        * intros Hb m Hm. rewrite K. destruct (decide (m = n)) as [->|Hd]; [exact S6|]. rewrite S3 by assumption. now apply A.
      + destruct (check_activation_spec n (deg E n) t F) as (F1 & C1 & S1). pose proof (sb_act n (deg E n) t F) as SB1. cbv zeta in *. set (t1 := check_activation n (deg E n) t) in *.
        destruct (check_deactivation_spec n (deg E n) t1 F1) as (F2 & C2 & S2). pose proof (sb_deact n (deg E n) t1 F1) as SB2. cbv zeta in *. set (t2 := check_deactivation n (deg E n) t1) in *.
        assert (forall m, ct t2 m = ct t m) as C3 by (intros m; rewrite C2, C1; reflexivity).
        assert (forall m, cnt E t2 m = cnt E t m) as K by (intros m; apply cnt_ext, (sb_trans _ t1); assumption).
        assert (forall m, m <> n -> st t2 m = st t m) as S3. { intros m Hm. rewrite S2, decide_False by tauto. rewrite S1, decide_False by tauto. reflexivity. }
        constructor; [assumption| | | |].
        * intros m Hm. destruct (decide (m = n)) as [->|Hd]; [auto|]. rewrite S3 in Hm by assumption. auto.
        * intros m. rewrite K, C3. apply C.
        * intros m. rewrite K. destruct (decide (m = n)) as [->|Hd]; [|rewrite S3 by assumption; apply R]. rewrite S2. cased D; [discriminate|]. intros Q.
          rewrite <- C. destruct (decide (deg E n <= ct t n)); [assumption|]. exfalso. apply D. rewrite C1. split; [reflexivity|]. split; [lia|assumption].
        * intros Hb m Hm. rewrite K. destruct (decide (m = n)) as [->|Hd]; [|rewrite S3 by assumption; now apply A]. rewrite S2. cased D; [intros _; rewrite <- C, <- C1; tauto|].
          rewrite S1. cased D1; [discriminate|]. now apply A.
    - assert (E' = <[i := (f, w')]> (delete i E)) as HE by (unfold E'; now rewrite insert_delete_insert).
      assert (forall n, w = Some n -> deg E' n = deg E n - 1) as Hd.
      { intros n ->. rewrite HE, deg_insert by apply lookup_delete. rewrite decide_False by congruence. rewrite (deg_delete _ _ _ _ n Hi), decide_True by reflexivity. lia. }
      assert (TI b (delete i E) N t1) as H1.
      { unfold t1. destruct w as [n|].
        - apply (TI_delete_edge b N E t i f (Some n) (deg E' n) (deg E' n) HT Hi Hw). intros n' E1. injection E1 as <-. rewrite (Hd n eq_refl). lia.
        - apply (TI_delete_edge b N E t i f None 0 0 HT Hi Hw). discriminate. }
      assert (same_behind t t1) as SB.
      { unfold t1. destruct w as [n|]; [|apply sb_refl]. destruct (decide (active t f)); [apply sb_dec, HT|apply sb_act, HT]. }
      pose proof (TI_add_edge b N (delete i E) t1 i f w' H1 (lookup_delete _ _) Hw') as H2. cbv zeta in H2. rewrite <- HE in H2.
      destruct w' as [n|]; [|assumption]. destruct (decide (active t f)) as [Da|Da].
      + rewrite decide_True in H2 by now apply (active_sb _ _ f SB). assumption.
      + rewrite decide_False in H2 by now rewrite (active_sb _ _ f SB). assumption.
  Qed.

  (** visiting a node of the frontier *)
  Definition wait_count (E : edges) (l : list nat) (m : ptr) : nat := length (filter (fun i => (E !! i ≫= snd) = Some m) l).
  Lemma visit_loop E L : forall t, fr_ok t -> (forall m, st t m = Frontier -> N m) ->
    (forall m, ct t m + wait_count E L m = cnt E t m) -> (forall m, st t m = Frontier -> deg E m <= ct t m) ->
    (b = true -> forall m, N m -> st t m = Ahead -> ct t m < deg E m) ->
    (forall i, i ∈ L -> forall n, (E !! i ≫= snd) = Some n -> N n) ->
    let t' := foldl (fun t i => with_node (E !! i ≫= snd) (fun n => inc_activation n (deg E n)) t) t L in
    TI b E N t' /\ same_behind t t'.
  Proof.
    induction L as [|i L IH]; intros t F HL HC HR HA HN; cbn [foldl].
    - split; [|apply sb_refl]. constructor; auto.
      + intros m. specialize (HC m). unfold wait_count in HC. simpl in HC. lia.
      + intros m Hm. specialize (HC m). specialize (HR m Hm). unfold wait_count in HC. simpl in HC. lia.
      + intros Hb m Hm Hs. specialize (HC m). specialize (HA Hb m Hm Hs). unfold wait_count in HC. simpl in HC. lia.
    - destruct (E !! i ≫= snd) as [n|] eqn:En; cbn [with_node].
      + destruct (inc_spec n (deg E n) t F) as (F1 & C1 & S1). pose proof (sb_inc n (deg E n) t F) as SB1. cbv zeta in *. set (t1 := inc_activation n (deg E n) t) in *.
        edestruct (IH t1) as [H1 H2]; [assumption| | | | |intros j Hj; apply HN; now right|split; [exact H1|eapply sb_trans; eassumption]].
        * intros m. rewrite S1. cased D; [|apply HL]. intros _. destruct D as (-> & _). apply (HN i); [now left|assumption].
        * intros m. rewrite (cnt_ext _ _ _ _ SB1), <- HC, C1. unfold wait_count. rewrite filter_cons. destruct (decide (m = n)) as [->|Hm].
          -- rewrite (decide_True (P := (E !! i ≫= snd) = Some n)) by assumption. cbn [length]. lia.
          -- rewrite (decide_False (P := (E !! i ≫= snd) = Some m)) by congruence. lia.
        * intros m. rewrite S1, C1. destruct (decide (m = n)) as [->|Hm].
          -- cased D; [intros _; tauto|]. intros Q. specialize (HR n Q). lia.
          -- rewrite decide_False by tauto. apply HR.
        * intros Hb m Hm. rewrite S1, C1. destruct (decide (m = n)) as [->|Hd].
          -- cased D; [discriminate|]. intros Q. destruct (decide (deg E n <= S (ct t n))); [exfalso; apply D; auto|lia].
          -- rewrite decide_False by tauto. now apply HA.
      + apply IH; auto; [|intros j Hj; apply HN; now right]. intros m. rewrite <- HC. unfold wait_count. rewrite filter_cons. rewrite (decide_False (P := (E !! i ≫= snd) = Some m)) by congruence. reflexivity.
  Qed.
  Lemma cnt_mark E t t' n (L : list nat) m : (forall k, st t' k = if decide (k = n) then Behind else st t k) -> st t n <> Behind ->
    NoDup L -> (forall i, i ∈ L <-> exists w, E !! i = Some (Some n, w)) -> cnt E t' m = cnt E t m + wait_count E L m.
  Proof.
    intros HS Hn Hnd HL. unfold cnt, wait_count.
    rewrite <- (size_list (fun kv => kv.2.2 = Some m /\ kv.2.1 = Some n) E (filter (fun i => (E !! i ≫= snd) = Some m) L)).
    - apply size_filter_split.
      + intros [i [f w]]. cbn. destruct f as [k|]; cbn [active]; [|split; [tauto|intros [?|[_ ?]]; [tauto|discriminate]]]. rewrite HS. destruct (decide (k = n)) as [->|Hk].
        * split; [intros [-> _]; right; auto|intros [[-> _]|[-> _]]; auto].
        * split; [tauto|]. intros [?|[_ ?]]; [tauto|congruence].
      + intros [i [f w]]. cbn. intros [_ H1] [_ ->]. cbn in H1. contradiction.
    - now apply NoDup_filter.
    - intros i. rewrite elem_of_list_filter, HL. split.
      + intros [H1 [w H2]]. rewrite H2 in H1. cbn in H1. exists (Some n, w). auto.
      + intros ([f w] & H1 & H2 & H3). cbn in H2, H3. subst. rewrite H1. cbn. eauto.
  Qed.
  Lemma TI_visit E t n L : TI b E N t -> st t n = Frontier -> NoDup L -> (forall i, i ∈ L <-> exists w, E !! i = Some (Some n, w)) ->
    (forall i, i ∈ L -> forall m, (E !! i ≫= snd) = Some m -> N m) ->
    let t' := foldl (fun t i => with_node (E !! i ≫= snd) (fun n => inc_activation n (deg E n)) t) (mark_if_frontier n t) L in
    TI b E N t' /\ forall m, st t' m = Behind <-> m = n \/ st t m = Behind.
  Proof.
    intros [F L0 C R A] Hn Hnd HL HN. destruct (mark_spec n t F) as (F1 & C1 & S1). cbv zeta in *. set (t1 := mark_if_frontier n t) in *.
    assert (forall k, st t1 k = if decide (k = n) then Behind else st t k) as S2.
    { intros k. rewrite S1. destruct (decide (k = n)) as [->|Hk]; [rewrite decide_True by auto|rewrite decide_False by tauto]; reflexivity. }
    assert (forall m, cnt E t1 m = cnt E t m + wait_count E L m) as HC by (intros m; apply (cnt_mark E t t1 n L m S2); [congruence|assumption..]).
    edestruct (visit_loop E L t1) as [H1 H2]; [assumption| | | | |assumption|split; [exact H1|]].
    - intros m. rewrite S2. cased D; [discriminate|apply L0].
    - intros m. rewrite HC, C1, C. reflexivity.
    - intros m. rewrite S2, C1, C. cased D; [discriminate|apply R].
    - intros Hb m Hm. rewrite S2, C1, C. cased D; [discriminate|now apply A].
    - intros m. rewrite (H2 m), S2. cased D; [|tauto]. tauto.
  Qed.

  (** a node disappears of which nobody waits for anything *)
  Lemma TI_forget E E' t n : TI b E N t -> (forall i f w, E' !! i = Some (f, w) <-> E !! i = Some (f, w) /\ w <> Some n) -> (forall i w, E !! i <> Some (Some n, w)) ->
    TI b E' (fun m => N m /\ m <> n) (forget n t) /\ (forall m, st (forget n t) m = if decide (m = n) then Ahead else st t m) /\ ct (forget n t) n = 0.
  Proof.
    intros [F L C R A] HE' Hfrom. set (t' := forget n t).
    assert (fr_ok t' /\ (forall m, ct t' m = if decide (m = n) then 0 else ct t m) /\ (forall m, st t' m = if decide (m = n) then Ahead else st t m)) as (F' & C' & S').
    { unfold t', forget. destruct (states t !! n) as [[s c]|] eqn:En.
      - assert (st t n = s) as Es by (unfold st, entry; now rewrite En).
        set (t1 := if decide (s = Frontier) then erase_frontier n t else t).
        assert (forall m, st {| states := delete n (states t1); frontier := frontier t1 |} m = if decide (m = n) then Ahead else st t m) as S1.
        { intros m. unfold st, entry. simpl. replace (states t1) with (states t) by (unfold t1; now destruct (decide (s = Frontier))).
          destruct (decide (m = n)) as [->|Hm]; [now rewrite lookup_delete|now rewrite lookup_delete_ne by auto]. }
        assert (forall m, ct {| states := delete n (states t1); frontier := frontier t1 |} m = if decide (m = n) then 0 else ct t m) as C1.
        { intros m. unfold ct, entry. simpl. replace (states t1) with (states t) by (unfold t1; now destruct (decide (s = Frontier))).
          destruct (decide (m = n)) as [->|Hm]; [now rewrite lookup_delete|now rewrite lookup_delete_ne by auto]. }
        split; [|split; assumption]. unfold t1 in *. destruct (decide (s = Frontier)) as [D|D].
        + eapply (fr_ok_erase t _ n Ahead); [reflexivity|exact S1|discriminate|exact F].
        + destruct F as [F1 F2]. split; [exact F1|]. intros m. rewrite S1. simpl. rewrite F2. cased D1; [|tauto]. subst m. rewrite Es. split; [intros ->; contradiction|discriminate].
      - assert (entry t n = (Ahead, 0)) as Ee by (unfold entry; now rewrite En). split; [assumption|]. split.
        + intros m. cased D; [|reflexivity]. subst. unfold ct. now rewrite Ee.
        + intros m. cased D; [|reflexivity]. subst. unfold st. now rewrite Ee. }
    assert (forall m, m <> n -> deg E' m = deg E m) as Ed.
    { intros m Hm. apply size_filter_ext. intros i [f w]. cbn. rewrite HE'. split; [tauto|]. intros [H1 H2]. split; [|assumption]. split; [assumption|congruence]. }
    assert (forall m, m <> n -> cnt E' t' m = cnt E t m) as Ec.
    { intros m Hm. apply size_filter_ext. intros i [f w]. cbn. rewrite HE'. assert (E !! i = Some (f, w) -> (active t' f <-> active t f)) as K.
      { intros Hi. destruct f as [k|]; [|reflexivity]. cbn. rewrite S', decide_False; [reflexivity|]. intros ->. exact (Hfrom i w Hi). }
      split; [tauto|]. intros (H1 & H2 & H3). split; [split; [assumption|congruence]|]. split; [assumption|]. now apply K. }
    assert (cnt E' t' n = 0) as En.
    { unfold cnt. apply map_size_empty_iff, map_filter_empty_iff. intros i [f w] Hi [H1 _]. cbn in H1. apply HE' in Hi as [_ Hi]. contradiction. }
    split; [|split; [exact S'|rewrite C', decide_True by reflexivity; reflexivity]]. constructor; [assumption| | | |].
    - intros m. rewrite S'. cased D; [discriminate|]. auto.
    - intros m. rewrite C'. cased D; [subst; now rewrite En|]. rewrite Ec by assumption. apply C.
    - intros m. rewrite S'. cased D; [discriminate|]. rewrite Ec, Ed by assumption. apply R.
    - intros Hb m [Hm1 Hm2]. rewrite S', decide_False, Ec, Ed by assumption. now apply A.
  Qed.

  (** a new node, which waits for the nodes of the edges [L] *)
  Lemma inc_loop (P : nat -> bool) n D L : forall t, fr_ok t -> (ct t n < D /\ st t n = Ahead \/ D <= ct t n /\ st t n = Frontier) ->
    let t' := foldl (fun t (i : nat) => if P i then inc_activation n D t else t) t L in
    fr_ok t' /\ (forall m, ct t' m = if decide (m = n) then ct t n + length (filter (fun i => P i = true) L) else ct t m) /\
    (forall m, m <> n -> st t' m = st t m) /\ (ct t' n < D /\ st t' n = Ahead \/ D <= ct t' n /\ st t' n = Frontier).
  Proof.
    induction L as [|i L IH]; intros t F Hn; cbn [foldl].
    - split; [assumption|]. split; [|split; [reflexivity|assumption]]. intros m. cased Q; [subst; cbn; lia|reflexivity].
    - rewrite filter_cons. destruct (P i) eqn:HP; [rewrite (decide_True (P := true = true)) by reflexivity|rewrite (decide_False (P := false = true)) by discriminate; now apply IH].
      destruct (inc_spec n D t F) as (F1 & C1 & S1). cbv zeta in *. set (t1 := inc_activation n D t) in *.
      assert (ct t1 n = S (ct t n)) as Cn by (rewrite C1, decide_True by reflexivity; reflexivity).
      destruct (IH t1 F1) as (F2 & C2 & S2 & S3).
      { rewrite Cn, S1. destruct Hn as [[H1 H2]|[H1 H2]]; rewrite H2.
        - destruct (decide (D <= S (ct t n))); [right; rewrite decide_True by auto; auto|left; rewrite decide_False by tauto; split; [lia|reflexivity]].
        - right. rewrite decide_False by (intros (_ & _ & K); discriminate). auto. }
      split; [assumption|]. split; [|split; [|assumption]].
      + intros m. rewrite C2. cased Q; [rewrite Cn; cbn [length]; lia|]. rewrite C1, decide_False by assumption. reflexivity.
      + intros m Hm. rewrite S2, S1, decide_False by tauto. reflexivity.
  Qed.
End Steps.
