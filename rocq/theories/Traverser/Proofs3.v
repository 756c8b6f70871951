(** creating and destroying nodes; the initial state *)
From stdpp Require Import base list gmap.
From Verif.Region Require Import Model.
From Verif.Traverser Require Import Model Proofs Proofs2.

Lemma foldl_sb {A} (step : bool -> A -> tracker -> tracker) (P : tracker -> A -> bool) (L : list A) :
  (forall t c a, fr_ok t -> fr_ok (step c a t) /\ same_behind t (step c a t)) ->
  (forall t t' a, same_behind t t' -> P t' a = P t a) ->
  forall t0 t, fr_ok t -> same_behind t0 t -> foldl (fun t a => step (P t a) a t) t L = foldl (fun t a => step (P t0 a) a t) t L.
Proof.
  intros HS HP. induction L as [|a L IH]; intros t0 t F SB; cbn [foldl]; [reflexivity|]. rewrite (HP t0 t a SB).
  destruct (HS t (P t0 a) a F) as [F' SB']. apply IH; [assumption|]. eapply sb_trans; eassumption.
Qed.

Section Steps.
  Context (b : bool) (N : ptr -> Prop).

  Lemma TI_new_node E E' t n L (P : nat -> bool) : TI b E N t -> st t n = Ahead -> ct t n = 0 ->
    NoDup L -> (forall i, i ∈ L -> E !! i = None /\ exists f, E' !! i = Some (f, Some n) /\ (P i = true <-> active t f)) -> (forall i, i ∉ L -> E' !! i = E !! i) ->
    (forall i f, E !! i <> Some (f, Some n)) -> (forall i w, E' !! i <> Some (Some n, w)) ->
    let t1 := if decide (L = []) then check_activation n 0 t else foldl (fun t i => if P i then inc_activation n (length L) t else t) t L in
    let t2 := mark_if_frontier n t1 in
    TI b E' (fun m => N m \/ m = n) t2 /\ (forall m, m <> n -> st t2 m = st t m).
  Proof.
    intros [F L0 C R A] Hs Hc Hnd HL HE Hto Hfrom t1 t2.
    assert (fr_ok t1 /\ (forall m, ct t1 m = if decide (m = n) then length (filter (fun i => P i = true) L) else ct t m) /\ (forall m, m <> n -> st t1 m = st t m) /\
      (ct t1 n < length L /\ st t1 n = Ahead \/ length L <= ct t1 n /\ st t1 n = Frontier)) as (F1 & C1 & S1 & N1).
    { unfold t1. destruct (decide (L = [])) as [->|Hne].
      - destruct (check_activation_spec n 0 t F) as (F1 & C1 & S1). cbv zeta in *. split; [assumption|]. split; [|split].
        + intros m. rewrite C1. cased Q; [subst; rewrite Hc; reflexivity|reflexivity].
        + intros m Hm. rewrite S1, decide_False by tauto. reflexivity.
        + right. rewrite C1, S1, decide_True by (rewrite Hc; auto). rewrite Hc. auto.
      - assert (0 < length L) by (destruct L; [contradiction|cbn; lia]).
        destruct (inc_loop N P n (length L) L t F) as (F1 & C1 & S1 & N1); [left; rewrite Hc; auto|]. cbv zeta in *. split; [assumption|]. split; [|split; assumption].
        intros m. rewrite C1, Hc. reflexivity. }
    destruct (mark_spec n t1 F1) as (F2 & C2 & S2). cbv zeta in *. fold t2 in F2, C2, S2.
    assert (forall m, m <> n -> st t2 m = st t m) as S3 by (intros m Hm; rewrite S2, decide_False by tauto; auto).
    split; [|assumption].
    assert (forall i f, E' !! i = Some (f, Some n) -> i ∈ L) as HinL.
    { intros i f Hi. destruct (decide (i ∈ L)) as [H|H]; [assumption|]. rewrite HE in Hi by assumption. exfalso. eapply Hto; exact Hi. }
    assert (forall i m f, E' !! i = Some (f, Some m) -> m <> n -> i ∉ L) as HninL.
    { intros i m f Hi Hm H. destruct (HL i H) as (_ & f' & Hf & _). congruence. }
    assert (forall i f w, E' !! i = Some (f, w) -> (active t2 f <-> active t f)) as Ha.
    { intros i f w Hi. destruct f as [k|]; [|reflexivity]. cbn. rewrite S3; [reflexivity|]. intros ->. exact (Hfrom i w Hi). }
    assert (deg E' n = length L) as Dn.
    { unfold deg. apply size_list; [assumption|]. intros i. split.
      - intros Hi. destruct (HL i Hi) as (_ & f & Hf & _). exists (f, Some n). auto.
      - intros ([f w] & Hi & Hw). cbn in Hw. subst. eapply HinL; exact Hi. }
    assert (cnt E' t2 n = length (filter (fun i => P i = true) L)) as Cn.
    { unfold cnt. apply size_list; [now apply NoDup_filter|]. intros i. rewrite elem_of_list_filter. split.
      - intros [HP Hi]. destruct (HL i Hi) as (_ & f & Hf & Hfa). exists (f, Some n). split; [assumption|]. cbn. split; [reflexivity|]. apply (Ha i f (Some n) Hf). now apply Hfa.
      - intros ([f w] & Hi & Hw & Hact). cbn in Hw, Hact. subst. apply (Ha i f (Some n) Hi) in Hact. pose proof (HinL i f Hi) as H. split; [|assumption].
        destruct (HL i H) as (_ & f' & Hf & Hfa). apply Hfa. congruence. }
    assert (forall m, m <> n -> deg E' m = deg E m) as Dm.
    { intros m Hm. apply size_filter_ext. intros i [f w]. cbn. split.
      - intros [Hi ->]. rewrite HE in Hi by (eapply HninL; eassumption). auto.
      - intros [Hi ->]. split; [|reflexivity]. rewrite HE; [assumption|]. intros H. destruct (HL i H) as [H1 _]. congruence. }
    assert (forall m, m <> n -> cnt E' t2 m = cnt E t m) as Cm.
    { intros m Hm. apply size_filter_ext. intros i [f w]. cbn. split.
      - intros (Hi & -> & Hact). apply (Ha i f (Some m) Hi) in Hact. rewrite HE in Hi by (eapply HninL; eassumption). auto.
      - intros (Hi & -> & Hact). assert (E' !! i = Some (f, Some m)) as Hi'. { rewrite HE; [assumption|]. intros H. destruct (HL i H) as [H1 _]. congruence. }
        split; [assumption|]. split; [reflexivity|]. now apply (Ha i f (Some m) Hi'). }
    constructor; [assumption| | | |].
    - intros m Hm. destruct (decide (m = n)) as [->|Hd]; [now right|]. left. apply L0. now rewrite <- S3.
    - intros m. rewrite C2, C1. cased D; [subst; now rewrite Cn|]. rewrite Cm by assumption. apply C.
    - intros m. destruct (decide (m = n)) as [->|Hd].
      + rewrite S2. cased D; [discriminate|]. intros K. exfalso. apply D. auto.
      + rewrite S3, Cm, Dm by assumption. apply R.
    - intros Hb m Hm. destruct (decide (m = n)) as [->|Hd].
      + rewrite S2. cased D; [discriminate|]. intros K. destruct N1 as [[N1 _]|[_ N1]]; [|congruence]. rewrite Cn, Dn. rewrite C1, decide_True in N1 by reflexivity. assumption.
      + rewrite S3, Cm, Dm by assumption. apply A; [assumption|]. tauto.
  Qed.

  (** all edges that come from a visited node disappear *)
  Lemma TI_delete_edges L : forall E t, TI b E N t -> NoDup L -> (forall i, i ∈ L -> exists f w, E !! i = Some (f, w) /\ active t f /\ forall n, w = Some n -> N n) ->
    let t' := foldl (fun t i => with_node (E !! i ≫= snd) (fun p => dec_activation p 0) t) t L in
    TI b (foldr delete E L) N t' /\ same_behind t t'.
  Proof.
    induction L as [|i L IH]; intros E t HT Hnd HL; cbn [foldl foldr]; [split; [assumption|apply sb_refl]|].
    apply NoDup_cons in Hnd as [Hi Hnd]. destruct (HL i) as (f & w & Hf & Ha & HN); [now left|]. rewrite Hf. cbn [mbind option_bind snd].
    pose proof (TI_delete_edge b N E t i f w 0 (match w with Some n => deg E n - 1 | None => 0 end) HT Hf HN) as H1.
    assert (TI b (delete i E) N (with_node w (fun p => dec_activation p 0) t) /\ same_behind t (with_node w (fun p => dec_activation p 0) t)) as [H2 SB].
    { split.
      - destruct w as [n|]; cbn [with_node]; [rewrite decide_True in H1 by assumption|]; apply H1; intros n' E1; [injection E1 as <-; lia|discriminate].
      - destruct w as [n|]; cbn [with_node]; [apply sb_dec, HT|apply sb_refl]. }
    set (t1 := with_node w (fun p => dec_activation p 0) t) in *.
    destruct (IH (delete i E) t1 H2 Hnd) as [H3 SB3].
    { intros j Hj. destruct (HL j) as (f' & w' & Hf' & Ha' & HN'); [now right|]. exists f', w'. split; [|split; [now apply (active_sb _ _ f' SB)|assumption]].
      rewrite lookup_delete_ne; [assumption|]. intros ->. contradiction. }
    assert (forall t0 l, i ∉ l -> foldl (fun t i0 => with_node (delete i E !! i0 ≫= snd) (fun p => dec_activation p 0) t) t0 l =
       foldl (fun t i0 => with_node (E !! i0 ≫= snd) (fun p => dec_activation p 0) t) t0 l) as K.
    { intros t0 l. revert t0. induction l as [|j l IHl]; intros t0 Hl; [reflexivity|]. apply not_elem_of_cons in Hl as [Hl1 Hl2]. cbn [foldl]. rewrite lookup_delete_ne by assumption. now apply IHl. }
    cbv zeta in H3, SB3. rewrite K in H3, SB3 by assumption. split; [|eapply sb_trans; eassumption].
    assert (delete i (foldr delete E L) = foldr delete (delete i E) L) as ->; [|exact H3].
    clear. induction L as [|j L IH]; cbn [foldr]; [reflexivity|]. rewrite <- IH. apply delete_commute.
  Qed.

  (** the constructors: [X] are the nodes that wait for nothing, [L] the edges from the boundary *)
  Lemma TI_init E X L : NoDup X -> (forall n, n ∈ X <-> N n /\ deg E n = 0) -> NoDup L ->
    (forall i, i ∈ L <-> exists w, E !! i = Some (None, w)) -> (forall i f w, E !! i = Some (f, Some w) -> N w) ->
    let t := foldl (fun t n => check_activation n (deg E n) t) no_tracker X in
    let t' := foldl (fun t i => with_node (E !! i ≫= snd) (fun n => inc_activation n (deg E n)) t) t L in
    TI b E N t' /\ forall m, st t' m <> Behind.
  Proof.
    intros HX HX' HL HL' HN t.
    assert (fr_ok t /\ (forall m, ct t m = 0) /\ forall m, st t m = if decide (m ∈ X) then Frontier else Ahead) as (F & C & S).
    { unfold t. assert (forall X t0, fr_ok t0 -> (forall m, ct t0 m = 0) -> NoDup X -> (forall n, n ∈ X -> deg E n = 0) -> (forall n, n ∈ X -> st t0 n = Ahead) ->
        let t := foldl (fun t n => check_activation n (deg E n) t) t0 X in
        fr_ok t /\ (forall m, ct t m = 0) /\ forall m, st t m = if decide (m ∈ X) then Frontier else st t0 m) as K.
      { clear. induction X as [|n X IH]; intros t0 F C Hnd Hd Hs; cbn [foldl].
        - split; [assumption|]. split; [assumption|]. intros m. rewrite decide_False by (intros K; inversion K). reflexivity.
        - apply NoDup_cons in Hnd as [Hn Hnd]. destruct (check_activation_spec n (deg E n) t0 F) as (F1 & C1 & S1). cbv zeta in *. set (t1 := check_activation n (deg E n) t0) in *.
          destruct (IH t1 F1) as (F2 & C2 & S2); [intros m; now rewrite C1|assumption|intros m Hm; apply Hd; now right| |].
          + intros m Hm. rewrite S1, decide_False; [apply Hs; now right|]. intros (-> & _). contradiction.
          + split; [assumption|]. split; [assumption|]. intros m. rewrite S2. destruct (decide (m ∈ X)) as [D|D]; [rewrite decide_True by (now right); reflexivity|].
            rewrite S1, (Hs n), (Hd n), C by now left. destruct (decide (m = n)) as [->|Hm]; [rewrite !decide_True by (auto; now left); reflexivity|].
            rewrite (decide_False (P := m ∈ n :: X)) by (rewrite elem_of_cons; tauto). rewrite decide_False by tauto. reflexivity. }
      destruct (K X no_tracker) as (F & C & S); [split; [constructor|]|reflexivity|assumption|intros n Hn; now apply HX'|reflexivity|].
      - intros n. split; [intros H; now apply elem_of_nil in H|discriminate].
      - split; [assumption|]. split; [assumption|]. intros m. rewrite S. reflexivity. }
    assert (forall m, cnt E t m = wait_count E L m) as Ec.
    { intros m. unfold cnt, wait_count. apply size_list; [now apply NoDup_filter|]. intros i. rewrite elem_of_list_filter, HL'. split.
      - intros [H1 [w H2]]. rewrite H2 in H1. cbn in H1. exists (None, w). split; [assumption|]. split; [exact H1|exact I].
      - intros ([f w] & H1 & H2 & H3). cbn in H2, H3. subst. destruct f as [k|]; [cbn in H3; rewrite S in H3; destruct (decide (k ∈ X)); discriminate|]. rewrite H1. cbn. eauto. }
    destruct (visit_loop b N E L t F) as [H1 H2].
    - intros m. rewrite S. cased D; [intros _; now apply HX'|discriminate].
    - intros m. rewrite C, Ec. reflexivity.
    - intros m. rewrite S. cased D; [intros _; apply HX' in D as [_ ->]; lia|discriminate].
    - intros _ m Hm. rewrite S, C. cased D; [discriminate|]. intros _. destruct (decide (deg E m = 0)); [exfalso; apply D, HX'; auto|lia].
    - intros i _ n Hn. destruct (E !! i) as [[f w]|] eqn:Hi; [|discriminate]. cbn in Hn. subst. eapply HN; exact Hi.
    - split; [exact H1|]. intros m Hm. apply H2 in Hm. rewrite S in Hm. destruct (decide (m ∈ X)); discriminate.
  Qed.
End Steps.

(** changes of the graph that do not concern the tracker *)
Lemma TI_ext b E E' (N N' : ptr -> Prop) t : TI b E N t -> (forall i, E' !! i = E !! i) -> (forall n, N n <-> N' n) -> TI b E' N' t.
Proof.
  intros [F L C R A] HE HN. assert (E' = E) as -> by (now apply map_eq). constructor; auto.
  - intros n Hn. apply HN. auto.
  - intros Hb n Hn. apply A; [assumption|]. now apply HN.
Qed.
