(** Alias queries: the theorems. *)
From stdpp Require Import base list fin_maps fin_sets gmap.
From Coq Require Import ZArith Lia.
From Verif.AliasQuery Require Import Model Spec ProofsTrace ProofsEscape ProofsQuery.
Local Open Scope Z_scope.

Section Local.
  Context (G : graph) (Hwf : wf G).
  Lemma local_right W max p1 s1 P1 p2 s2 P2 r : execution G W -> origins_fixed G W \/ no_pointer_loop_variables G ->
    local_query G max p1 s1 p2 s2 = Done r -> accesses W p1 s1 P1 -> accesses W p2 s2 P2 -> right_answer P1.1 P1.2 s1 P2.1 P2.2 s2 r.
  Proof using Hwf.
    intros HW Hreg Hq H1 H2. destruct P1 as [b1 w1], P2 as [b2 w2]. destruct Hreg as [Hfix|Hno].
    - refine (local_answer G Hwf W HW max p1 s1 b1 w1 p2 s2 b2 w2 r everything (ex_norm G W HW) _ _ _ Hq H1 H2).
      + intros i o p _ Hh. by apply (ex_events G W HW).
      + intros o i j p q Ho _ _ Hp Hq'. by eapply Hfix.
      + done.
    - refine (local_answer G Hwf W HW max p1 s1 b1 w1 p2 s2 b2 w2 r (current W) (ex_norm_now G W HW) _ _ _ Hq H1 H2).
      + intros i o p Hc Hh. by apply (current_norm_just G W HW).
      + intros o i j p q _ (o1 & q1 & E1 & N1) (o2 & q2 & E2 & N2) G1 G2. unfold happens in *. assert (o1 = o) by congruence. assert (o2 = o) by congruence. subst. assert (i = j) by congruence. subst. congruence.
      + done.
  Qed.
  (** C78: if the answer is NoAlias, the bytes accessed at the two pointers are different *)
  Theorem local_no_alias_sound W max p1 s1 P1 p2 s2 P2 : execution G W -> origins_fixed G W \/ no_pointer_loop_variables G ->
    local_query G max p1 s1 p2 s2 = Done NoAlias -> accesses W p1 s1 P1 -> accesses W p2 s2 P2 -> ~ share_byte P1 s1 P2 s2.
  Proof using Hwf. intros HW Hr Hq H1 H2. destruct (local_right W max p1 s1 P1 p2 s2 P2 _ HW Hr Hq H1 H2) as [H _]. destruct P1, P2. by apply H. Qed.
  (** C78: if the answer is MustAlias, the two pointers are the same *)
  Theorem local_must_alias_sound W max p1 s1 P1 p2 s2 P2 : execution G W -> origins_fixed G W \/ no_pointer_loop_variables G ->
    local_query G max p1 s1 p2 s2 = Done MustAlias -> accesses W p1 s1 P1 -> accesses W p2 s2 P2 -> P1 = P2.
  Proof using Hwf. intros HW Hr Hq H1 H2. destruct (local_right W max p1 s1 P1 p2 s2 P2 _ HW Hr Hq H1 H2) as [_ H]. destruct P1, P2. by apply H. Qed.

  (** C79: an alloca whose address is found not to escape: no load, call or other operation of the function ever gives a pointer to it *)
  Theorem traceable_never_comes_back W a n : execution G W -> fully_traceable G a = Done true -> forall i o x, happens W i o (Stack a n, x) -> kind_of G o <> Other /\ kind_of G o <> Param /\ ~ escapes G o.
  Proof using Hwf.
    intros HW Hf i o x Hh. split; [|split].
    - intros Hk. by eapply no_stack_elsewhere.
    - intros Hk. pose proof (ex_events G W HW _ _ _ Hh) as Hj. unfold justified in Hj. by rewrite Hk in Hj.
    - intros He. pose proof (fully_traceable_ok G Hwf a) as H. rewrite Hf in H. destruct H as (_ & A & Ha & HA). assert (Hin : o ∈ A) by (by eapply stack_stays).
      destruct He as [He|He]; destruct (HA o Hin _ He) as (l & E & _); discriminate E.
  Qed.

  Lemma traceable_total l : exists r, all_traceable G l = Done r.
  Proof using Hwf.
    induction l as [|[o z] l [r IH]]; [by exists true|]. cbn. pose proof (fully_traceable_ok G Hwf o) as H. destruct (fully_traceable G o) as [[|]| |]; cbn; [by exists r | by exists false | done | done].
  Qed.
  (** C80: every query is answered: tracing ends, also in loops, and no assertion fails *)
  Theorem local_query_total max p1 s1 p2 s2 : exists r, local_query G max p1 s1 p2 s2 = Done r.
  Proof using Hwf.
    unfold local_query. destruct (decide (norm G p1 = norm G p2)); [by eexists|].
    destruct (trace_precise_done G Hwf (norm G p1)) as (b1 & off1 & ->). destruct (trace_precise_done G Hwf (norm G p2)) as (b2 & off2 & ->). cbn [obind].
    destruct (decide (b1 = b2)); [by eexists|]. destruct (decide (max <= 1)%nat); [by eexists|].
    pose proof (trace_all_good G Hwf max b1 off1) as A1. destruct (trace_all G max b1 off1) as [[[|] tc1]| |]; cbn [obind negb]; [|by eexists|done|done].
    pose proof (trace_all_good G Hwf max b2 off2) as A2. destruct (trace_all G max b2 off2) as [[[|] tc2]| |]; cbn [obind negb]; [|by eexists|done|done].
    destruct (single_origin _ _) as [[o1 o2]|]; [by eexists|]. unfold query_collections.
    destruct (overlap _ _ _ _); [by eexists|]. destruct (only_original _ _ && only_original _ _); [by eexists|].
    match goal with |- context [let (_, _) := ?TT in _] => destruct TT as [U1 U2] end. destruct (decide (U1 = ∅ \/ U2 = ∅)); [by eexists|].
    unfold only_traceable. destruct (traceable_total (map_to_list U1)) as [[|] ->]; cbn [obind]; [by eexists|]. destruct (traceable_total (map_to_list U2)) as [[|] ->]; by eexists.
  Qed.

  Lemma query_offsets_sym o1 s1 o2 s2 : query_offsets o1 s1 o2 s2 = query_offsets o2 s2 o1 s1.
  Proof using.
    clear Hwf. unfold query_offsets. destruct o1 as [d1|], o2 as [d2|]; try done.
    destruct (decide (d2 - d1 = 0)), (decide (d1 - d2 = 0)); try lia; [done|].
    destruct (decide (0 <= d2 - d1 /\ s1 <= d2 - d1)), (decide (0 <= d1 - d2 /\ s2 <= d1 - d2)), (decide (d2 - d1 <= 0 /\ s2 <= - (d2 - d1))), (decide (d1 - d2 <= 0 /\ s1 <= - (d1 - d2))); try done; lia.
  Qed.
  Lemma overlap_sym T1 s1 T2 s2 : overlap T1 s1 T2 s2 = overlap T2 s2 T1 s1.
  Proof using.
    clear Hwf. assert (H : forall T1 s1 T2 s2, overlap T1 s1 T2 s2 = true -> overlap T2 s2 T1 s1 = true).
    { clear. intros T1 s1 T2 s2 H. unfold overlap in *. apply existsb_exists in H as ([t o1] & Hin & Hq). cbn in Hq. destruct (T2 !! t) as [o2|] eqn:E; [|done]. apply existsb_exists. exists (t, o2).
      apply elem_of_list_In, elem_of_map_to_list in Hin. split; [by apply elem_of_list_In, elem_of_map_to_list|]. cbn. rewrite Hin. by rewrite query_offsets_sym. }
    destruct (overlap T1 s1 T2 s2) eqn:E1, (overlap T2 s2 T1 s1) eqn:E2; try done; [apply H in E1 | apply H in E2]; congruence.
  Qed.
  Lemma only_alloca_original T : only_alloca G T = true -> only_original G T = true.
  Proof using.
    clear Hwf. unfold only_alloca, only_original. rewrite !forallb_forall. intros H d Hd. specialize (H d Hd). unfold is_alloca in H. unfold is_original. by destruct (kind_of G d.1).
  Qed.
  Lemma single_origin_sym T1 T2 : single_origin T2 T1 = match single_origin T1 T2 with Some (a, b) => Some (b, a) | None => None end.
  Proof using.
    clear Hwf. unfold single_origin. destruct (map_to_list T1) as [|[b1 o1] [|? ?]], (map_to_list T2) as [|[b2 o2] [|? ?]]; try done; try (by destruct p). destruct (decide (b1 = b2)), (decide (b2 = b1)); congruence.
  Qed.
  (** C80: the answer does not depend on the order of the two pointers *)
  Theorem local_query_symmetric max p1 s1 p2 s2 : local_query G max p1 s1 p2 s2 = local_query G max p2 s2 p1 s1.
  Proof using Hwf.
    unfold local_query. destruct (decide (norm G p1 = norm G p2)), (decide (norm G p2 = norm G p1)); try congruence.
    destruct (trace_precise_done G Hwf (norm G p1)) as (b1 & off1 & ->). destruct (trace_precise_done G Hwf (norm G p2)) as (b2 & off2 & ->). cbn [obind].
    destruct (decide (b1 = b2)), (decide (b2 = b1)); try congruence; [by rewrite query_offsets_sym|]. destruct (decide (max <= 1)%nat); [by rewrite andb_comm|].
    pose proof (trace_all_good G Hwf max b1 off1) as A1. destruct (trace_all G max b1 off1) as [[r1 tc1]| |]; cbn [obind]; [|done|done]. clear A1.
    pose proof (trace_all_good G Hwf max b2 off2) as A2. destruct (trace_all G max b2 off2) as [[r2 tc2]| |]; cbn [obind]; [|done|done]. clear A2.
    destruct r1, r2; cbn [negb]; try done. rewrite (single_origin_sym (remove_small_remaining G tc1.2 s1)). destruct (single_origin _ _) as [[o1 o2]|]; [by rewrite query_offsets_sym|].
    unfold query_collections. set (T1 := remove_small_remaining G tc1.2 s1). set (T2 := remove_small_remaining G tc2.2 s2).
    set (min1 := if decide (0 < off1) then _ else _). set (min2 := if decide (0 < off2) then _ else _).
    set (U1 := remove_within G (remove_smaller G T1 (u64 (min2 + s2))) s1 min2). set (U2 := remove_within G (remove_smaller G T2 (u64 (min1 + s1))) s2 min1). clearbody U1 U2.
    rewrite (overlap_sym U2). destruct (overlap U1 s1 U2 s2); [done|]. rewrite (andb_comm (only_original G U2)). destruct (only_original G U1 && only_original G U2) eqn:Eo; [done|].
    assert (Hsym : forall V1 V2 : gmap nat (option Z), (if decide (V1 = ∅ \/ V2 = ∅) then Done NoAlias else let! r := only_traceable G V1 in if r then Done NoAlias else let! r := only_traceable G V2 in if r then Done NoAlias else Done MayAlias)
      = (if decide (V2 = ∅ \/ V1 = ∅) then Done NoAlias else let! r := only_traceable G V2 in if r then Done NoAlias else let! r := only_traceable G V1 in if r then Done NoAlias else Done MayAlias)).
    { intros V1 V2. destruct (decide (V1 = ∅ \/ V2 = ∅)), (decide (V2 = ∅ \/ V1 = ∅)); try tauto. unfold only_traceable.
      destruct (traceable_total (map_to_list V1)) as [[|] ->], (traceable_total (map_to_list V2)) as [[|] ->]; done. }
    destruct (only_alloca G U1) eqn:Ea1, (only_alloca G U2) eqn:Ea2; try apply Hsym.
    exfalso. rewrite (only_alloca_original _ Ea1), (only_alloca_original _ Ea2) in Eo. done.
  Qed.
End Local.

(** A function that meets the hypotheses: an alloca of 16 bytes (0) that does not escape, a pointer argument (1) that a loop advances (5, 6), a pointer
    loaded from memory (3), and a pointer (4) to the start or the middle of the alloca *)
Module Ex.
  Definition kinds : list kind := [Alloca (Some 1) 16; Param; Gep 0 (Some 8); Other; Select 0 2; ThetaPre 1 6; Gep 5 (Some 4)].
  Definition users : list (list use) := [[UGep 2; USelect 4; UStoreAddress]; [UOther; UThetaIn 5; ULoad]; [USelect 4]; [ULoad]; [ULoad]; [UGep 6; ULoad]; [UThetaRes 5 7]].
  Definition graph : graph := Graph (fun o => default Other (kinds !! o)) (fun o => default [] (users !! o)) id id [0; 1; 2; 3; 4; 5; 6; 7]%nat.
  (* two iterations of the loop *)
  Definition evs : list (nat * pointer) :=
    [(0%nat, (Stack 0 0, 0)); (2%nat, (Stack 0 0, 8)); (1%nat, (Outside 0, 0)); (3%nat, (Outside 1, 4)); (4%nat, (Stack 0 0, 8)); (5%nat, (Outside 0, 0)); (6%nat, (Outside 0, 4)); (5%nat, (Outside 0, 4)); (6%nat, (Outside 0, 8))].
  Definition last_of (o : nat) : option nat := default None ([Some 0; Some 2; Some 1; Some 3; Some 4; Some 7; Some 8]%nat !! o).
  Definition W : world := World evs last_of (fun _ => 16).
  Lemma cases (P : nat -> kind -> list use -> Prop) : (forall o, P o Other []) -> P 0%nat (Alloca (Some 1) 16) [UGep 2; USelect 4; UStoreAddress] -> P 1%nat Param [UOther; UThetaIn 5; ULoad] ->
    P 2%nat (Gep 0 (Some 8)) [USelect 4] -> P 3%nat Other [ULoad] -> P 4%nat (Select 0 2) [ULoad] -> P 5%nat (ThetaPre 1 6) [UGep 6; ULoad] -> P 6%nat (Gep 5 (Some 4)) [UThetaRes 5 7] ->
    forall o, P o (kind_of graph o) (uses graph o).
  Proof. intros Hd H0 H1 H2 H3 H4 H5 H6 o. do 7 (destruct o as [|o]; [done|]). apply Hd. Qed.
  Ltac member := repeat (first [apply elem_of_list_here | apply elem_of_list_further]).
  Ltac elem H := repeat (apply elem_of_cons in H as [H|H]); try (apply elem_of_nil in H; done).
  Lemma graph_wf : wf graph.
  Proof.
    split.
    - intros o. unfold stops. change (norm graph o) with o. pattern o, (kind_of graph o), (uses graph o). by apply cases.
    - done.
    - intros o b c. change (rank graph) with (fun x : nat => x). pattern o, (kind_of graph o), (uses graph o). apply cases; try (intros; congruence); intros [= <- <-]; lia.
    - intros o x. unfold operand, used_by. pattern o, (kind_of graph o), (uses graph o). apply cases; try done; try (intros ->; split; [done|]; cbn; by left).
      + intros [->| ->]; (split; [tauto|]); cbn; [right; by left | by left].
      + intros [->| ->]; [left | right]; (split; [done|]); cbn; [right; by left|]. exists 7%nat. by left.
    - intros o. unfold is_alloca. pattern o, (kind_of graph o), (uses graph o). apply cases; try done. intros _. by left.
    - intros o u l x. pattern o, (kind_of graph o), (uses graph o). apply cases; [intros ? Hu%elem_of_nil; done|..]; intros Hu Ht Hx; elem Hu; subst u; cbn in Ht; try done; injection Ht as <-; elem Hx; subst x; cbn; member.
  Qed.
  Lemma run : execution graph W.
  Proof.
    assert (Hcase : forall (P : nat -> nat -> pointer -> Prop), P 0%nat 0%nat (Stack 0 0, 0) -> P 1%nat 2%nat (Stack 0 0, 8) -> P 2%nat 1%nat (Outside 0, 0) -> P 3%nat 3%nat (Outside 1, 4) -> P 4%nat 4%nat (Stack 0 0, 8) -> P 5%nat 5%nat (Outside 0, 0) ->
      P 6%nat 6%nat (Outside 0, 4) -> P 7%nat 5%nat (Outside 0, 4) -> P 8%nat 6%nat (Outside 0, 8) -> forall i o p, happens W i o p -> P i o p).
    { intros P H0 H1 H2 H3 H4 H5 H6 H7 H8 i o p. unfold happens. do 9 (destruct i as [|i]; [intros [= <- <-]; done|]). intros H. by apply lookup_lt_Some in H; cbn in H; lia. }
    split.
    - apply Hcase; unfold justified; cbn; try done.
      + by exists 0%nat.
      + exists 0. split; [by exists 0%nat; split; [lia|]|]. intros d [= <-]. done.
      + right. exists 1%nat. split; [lia|done].
      + left. exists 2%nat. split; [lia|done].
      + exists 0. split; [exists 5%nat; split; [lia|done]|]. intros d [= <-]. done.
      + right. exists 6%nat. split; [lia|done].
      + exists 4. split; [exists 7%nat; split; [lia|done]|]. intros d [= <-]. done.
    - assert (Hcur : forall i o p, happens W i o p -> last_of o = Some i -> current W i) by (intros i o p Hh Hn; by exists o, p).
      intros o i. cbn. destruct o as [|[|[|[|[|[|[|o]]]]]]]; [intros [= <-]..|done].
      + exists (Stack 0 0, 0). split; [done|]. intros _. by exists 0%nat.
      + exists (Outside 0, 0). split; [done|]. done.
      + exists (Stack 0 0, 8). split; [done|]. intros _. exists 0. split; [exists 0%nat; split; [lia|]; split; [by eapply Hcur|done]|]. intros d [= <-]. done.
      + exists (Outside 1, 4). done.
      + exists (Stack 0 0, 8). split; [done|]. intros _. right. exists 1%nat. split; [lia|]. split; [by eapply (Hcur 1%nat 2%nat)|done].
      + exists (Outside 0, 4). split; [done|]. intros H. by destruct (H 1%nat 6%nat).
      + exists (Outside 0, 8). split; [done|]. intros _. exists 4. split; [exists 7%nat; split; [lia|]; split; [by eapply (Hcur 7%nat 5%nat)|done]|]. intros d [= <-]. done.
    - intros i o p _ Hh. by exists i.
    - intros i o p Hc Hh. by exists i.
    - intros i o b x Hh. revert i o b x Hh. enough (H : forall i o p, happens W i o p -> 0 <= p.2 <= 16) by (intros i o b x Hh; by apply (H i o (b, x))). apply Hcase; cbn; lia.
    - intros i o b x n Hh Hn. enough (H : forall n, constant_size graph o = Some n -> n = 16) by (cbn; by rewrite (H n)). clear Hn n. revert Hh. generalize (b, x). revert i o. apply (Hcase (fun i o p => forall n, constant_size graph o = Some n -> n = 16)); cbn; intros n [= <-]; done.
    - intros b. cbn. lia.
  Qed.
  Lemma fixed : origins_fixed graph W.
  Proof.
    intros o i j p q Ho Hi Hj. enough (H : forall i p, happens W i o p -> p = match o with 0%nat => (Stack 0 0, 0) | 1%nat => (Outside 0, 0) | _ => (Outside 1, 4) end) by (rewrite (H i p Hi), (H j q Hj); done).
    clear i j p q Hi Hj. intros i p. unfold happens. do 9 (destruct i as [|i]; [intros [= <- <-]; done|]). intros H. by apply lookup_lt_Some in H; cbn in H; lia.
  Qed.
  (* the pointer into the alloca against the loaded pointer, and against the advancing one *)
  Example answers : local_query graph 1000 4 8 3 8 = Done NoAlias /\ local_query graph 1000 5 4 4 8 = Done NoAlias /\ local_query graph 1000 5 4 3 8 = Done MayAlias /\
    local_query graph 1000 2 8 0 8 = Done NoAlias /\ local_query graph 1000 2 8 0 16 = Done MayAlias /\ local_query graph 1000 4 16 0 4 = Done MustAlias /\ fully_traceable graph 0 = Done true.
  Proof. by vm_compute. Qed.
  Example applies : ~ share_byte (Stack 0 0, 8) 8 (Outside 0, 4) 4.
  Proof.
    apply (local_no_alias_sound graph graph_wf W 1000 4 8 (Stack 0 0, 8) 5 4 (Outside 0, 4)); [exact run | left; exact fixed | rewrite (local_query_symmetric _ graph_wf); by apply answers | |].
    - split; [by exists 4%nat|]. cbn. lia.
    - split; [by exists 7%nat|]. cbn. lia.
  Qed.
End Ex.
(** Without the condition on loops the answers are wrong: a loop variable (1) with the pointer that was loaded (2) in the last iteration, first undefined *)
Module Loop.
  Definition kinds : list kind := [Undef; ThetaPre 0 2; Other].
  Definition users : list (list use) := [[UThetaIn 1]; [ULoad]; [UThetaRes 1 3; ULoad]].
  Definition graph : graph := Graph (fun o => default Other (kinds !! o)) (fun o => default [] (users !! o)) id id [0; 1; 2; 3]%nat.
  Definition evs : list (nat * pointer) := [(2%nat, (Outside 0, 0)); (1%nat, (Outside 0, 0)); (2%nat, (Outside 1, 0))].
  Definition W : world := World evs (fun o => match o with 1 => Some 1 | 2 => Some 2 | _ => None end)%nat (fun _ => 16).
  Lemma graph_wf : wf graph.
  Proof.
    split; try done.
    - intros [|[|[|o]]]; done.
    - intros [|[|[|o]]] b c; done.
    - intros [|[|[|o]]] x; try done. intros [->| ->]; [left | right]; (split; [done|]); [by left|]. exists 3%nat. by left.
    - intros [|[|[|o]]]; done.
    - intros [|[|[|o]]] u l x Hu Ht Hx; cbn in Hu; Ex.elem Hu; subst u; cbn in Ht; try done; injection Ht as <-; Ex.elem Hx; subst x; cbn; Ex.member.
  Qed.
  Lemma run : execution graph W.
  Proof.
    split.
    - intros [|[|[|i]]] o p; unfold happens; try (intros [= <- <-]); [done| |done]. right. exists 0%nat. split; [lia|done].
    - intros [|[|[|o]]] i; try done; intros [= <-]; [exists (Outside 0, 0) | by exists (Outside 1, 0)]. split; [done|]. intros H. by destruct (H 0%nat 2%nat).
    - intros i o p _ Hh. by exists i.
    - intros i o p Hc Hh. by exists i.
    - intros [|[|[|i]]] o b x; unfold happens; try done; intros [= <- <- <-]; cbn; lia.
    - intros [|[|[|i]]] o b x n; unfold happens; try done; by intros [= <- <- <-].
    - intros b. cbn. lia.
  Qed.
  (** C78: MustAlias for the pointer of the last iteration and the one of this iteration *)
  Theorem local_must_alias_refuted : wf graph /\ execution graph W /\ local_query graph 1000 1 8 2 8 = Done MustAlias /\ accesses W 1 8 (Outside 0, 0) /\ accesses W 2 8 (Outside 1, 0).
  Proof.
    split; [exact graph_wf|]. split; [exact run|]. split; [by vm_compute|]. split; (split; [|cbn; lia]); [by exists 1%nat | by exists 2%nat].
  Qed.
End Loop.
(** the pointer loaded in the last iteration, plus 8 (1, 3), against the one of this iteration (2) *)
Module Loop2.
  Definition kinds : list kind := [Undef; ThetaPre 0 3; Other; Gep 2 (Some 8)].
  Definition users : list (list use) := [[UThetaIn 1]; [ULoad]; [UGep 3; ULoad]; [UThetaRes 1 4]].
  Definition graph : graph := Graph (fun o => default Other (kinds !! o)) (fun o => default [] (users !! o)) id id [0; 1; 2; 3; 4]%nat.
  Definition evs : list (nat * pointer) := [(2%nat, (Outside 0, 0)); (3%nat, (Outside 0, 8)); (1%nat, (Outside 0, 8)); (2%nat, (Outside 0, 8))].
  Definition W : world := World evs (fun o => match o with 1 => Some 2 | 2 => Some 3 | _ => None end)%nat (fun _ => 16).
  Lemma graph_wf : wf graph.
  Proof.
    split; try done.
    - intros [|[|[|[|o]]]]; done.
    - intros [|[|[|[|o]]]] b c; try done. intros [= <- <-]. cbn. lia.
    - intros [|[|[|[|o]]]] x; try done.
      + intros [->| ->]; [left | right]; (split; [done|]); [by left|]. exists 4%nat. by left.
      + intros ->. split; [done|]. by left.
    - intros [|[|[|[|o]]]]; done.
    - intros [|[|[|[|o]]]] u l x Hu Ht Hx; cbn in Hu; Ex.elem Hu; subst u; cbn in Ht; try done; injection Ht as <-; Ex.elem Hx; subst x; cbn; Ex.member.
  Qed.
  Lemma run : execution graph W.
  Proof.
    split.
    - intros [|[|[|[|i]]]] o p; unfold happens; try (intros [= <- <-]); [done| | |done].
      + exists 0. split; [exists 0%nat; split; [lia|done]|]. intros d [= <-]. done.
      + right. exists 1%nat. split; [lia|done].
    - intros [|[|[|o]]] i; try done; intros [= <-]; [exists (Outside 0, 8) | by exists (Outside 0, 8)]. split; [done|]. intros H. by destruct (H 0%nat 3%nat).
    - intros i o p _ Hh. by exists i.
    - intros i o p Hc Hh. by exists i.
    - intros [|[|[|[|i]]]] o b x; unfold happens; try done; intros [= <- <- <-]; cbn; lia.
    - intros [|[|[|[|i]]]] o b x n; unfold happens; try done; by intros [= <- <- <-].
    - intros b. cbn. lia.
  Qed.
  (** C78: NoAlias for equal pointers *)
  Theorem local_no_alias_refuted : wf graph /\ execution graph W /\ local_query graph 1000 1 8 2 8 = Done NoAlias /\ accesses W 1 8 (Outside 0, 8) /\ accesses W 2 8 (Outside 0, 8) /\ share_byte (Outside 0, 8) 8 (Outside 0, 8) 8.
  Proof.
    split; [exact graph_wf|]. split; [exact run|]. split; [by vm_compute|]. split; [|split]; [split; [by exists 2%nat | cbn; lia] | split; [by exists 3%nat | cbn; lia]|]. split; [done|]. exists 8. cbn. lia.
  Qed.
End Loop2.
