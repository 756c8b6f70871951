(** The redirection of call outputs keeps what the users see. *)
From stdpp Require Import base list.
From Coq Require Import Lia.
From Verif.CallRedirect Require Import Model Spec.

Lemma redirect_results_elem otype l ops outs : forall n ds d o,
  redirect_results otype l ops n outs = Done ds -> (d, o) ∈ ds ->
  exists k i, d = CallOut k /\ n <= k /\ k < n + length outs /\ results l !! k = Some (Arg i) /\ i < length (params l) /\ ops !! i = Some o.
Proof.
  induction outs as [|[t u] outs IH]; intros n ds d o H Hd; cbn in H.
  - injection H as <-. apply elem_of_nil in Hd. destruct Hd.
  - destruct (results l !! n) as [r|] eqn:Hr; [|discriminate H].
    destruct r as [i|e|x].
    + destruct (length (params l) <=? i) eqn:Hl.
      * destruct (IH _ _ _ _ H Hd) as (k & i' & ? & ? & ? & ?). exists k, i'. cbn. repeat split; try tauto; lia.
      * apply Nat.leb_gt in Hl. destruct (ops !! i) as [o'|] eqn:Ho; [|discriminate H].
        destruct (divert_ok otype t u o'); [|discriminate H].
        destruct (redirect_results otype l ops (S n) outs) as [ds'| |] eqn:Hrec; try discriminate H. injection H as <-.
        apply elem_of_cons in Hd. destruct Hd as [Hd|Hd].
        { injection Hd as -> ->. exists n, i. cbn. repeat split; try tauto; lia. }
        { destruct (IH _ _ _ _ Hrec Hd) as (k & i' & ? & ? & ? & ?). exists k, i'. cbn. repeat split; try tauto; lia. }
    + destruct (IH _ _ _ _ H Hd) as (k & i' & ? & ? & ? & ?). exists k, i'. cbn. repeat split; try tauto; lia.
    + destruct (IH _ _ _ _ H Hd) as (k & i' & ? & ? & ? & ?). exists k, i'. cbn. repeat split; try tauto; lia.
Qed.

Lemma redirect_results_complete otype l ops outs : forall n ds k i o,
  redirect_results otype l ops n outs = Done ds -> n <= k -> k < n + length outs ->
  results l !! k = Some (Arg i) -> i < length (params l) -> ops !! i = Some o -> (CallOut k, o) ∈ ds.
Proof.
  induction outs as [|[t u] outs IH]; intros n ds k i o H Hk Hk' Hr Hi Ho; cbn in H, Hk'; [lia|].
  destruct (decide (k = n)) as [->|Hne].
  - rewrite Hr in H. destruct (length (params l) <=? i) eqn:Hl; [apply Nat.leb_le in Hl; lia|].
    rewrite Ho in H. destruct (divert_ok otype t u o); [|discriminate H].
    destruct (redirect_results otype l ops (S n) outs); try discriminate H. injection H as <-. apply elem_of_list_here.
  - destruct (results l !! n) as [r|] eqn:Hrn; [|discriminate H].
    assert (forall ds', redirect_results otype l ops (S n) outs = Done ds' -> (CallOut k, o) ∈ ds') as Hrec.
    { intros ds' H'. apply (IH (S n) ds' k i o H'); try assumption; lia. }
    destruct r as [i'|e|x]; [|exact (Hrec _ H)|exact (Hrec _ H)].
    destruct (length (params l) <=? i'); [exact (Hrec _ H)|].
    destruct (ops !! i') as [o'|]; [|discriminate H]. destruct (divert_ok otype t u o'); [|discriminate H].
    destruct (redirect_results otype l ops (S n) outs) as [ds'| |] eqn:E; try discriminate H. injection H as <-.
    apply elem_of_list_further. apply Hrec. reflexivity.
Qed.

Lemma lookup_elem {A} m (l : list (id * A)) a : lookup m l = Some a -> (m, a) ∈ l.
Proof.
  induction l as [|[k b] l IH]; cbn; [discriminate|]. destruct (k =? m) eqn:E.
  - intros H. injection H as ->. apply Nat.eqb_eq in E as ->. apply elem_of_list_here.
  - intros H. apply elem_of_list_further. auto.
Qed.
Lemma lookup_none {A} m (l : list (id * A)) : lookup m l = None -> m ∉ l.*1.
Proof.
  induction l as [|[k b] l IH]; cbn; intros H Hm; [inversion Hm|]. destruct (k =? m) eqn:E; [discriminate H|].
  apply elem_of_cons in Hm. destruct Hm as [->|Hm]; [rewrite Nat.eqb_refl in E; discriminate E|]. exact (IH H Hm).
Qed.
Lemma elem_fst {A} m a (l : list (id * A)) : (m, a) ∈ l -> m ∈ l.*1.
Proof. intros H. apply elem_of_list_fmap. exists (m, a). auto. Qed.

Lemma exit_source {A} ext (exit : list (id * A)) m :
  match orelse (lookup m exit) (lookup ext exit) with
  | Some r => exists e, (e, r) ∈ exit /\ represents ext (exit.*1) e m
  | None => m ∉ exit.*1 /\ ext ∉ exit.*1
  end.
Proof.
  destruct (lookup m exit) as [r|] eqn:E; cbn.
  - exists m. split; [exact (lookup_elem _ _ _ E)|left; reflexivity].
  - destruct (lookup ext exit) as [r|] eqn:E'.
    + exists ext. pose proof (lookup_elem _ _ _ E') as H. split; [exact H|]. right. split; [reflexivity|]. split; [exact (elem_fst _ _ _ H)|exact (lookup_none _ _ E)].
    + split; apply lookup_none; assumption.
Qed.
Lemma entry_source ext (entry : list id) m :
  match orelse (split_output m entry) (split_output ext entry) with
  | Some r => exists e, r = SplitOut e /\ e ∈ entry /\ represents ext entry e m
  | None => m ∉ entry /\ ext ∉ entry
  end.
Proof.
  unfold split_output. case_bool_decide as H; cbn.
  - exists m. split; [reflexivity|]. split; [exact H|left; reflexivity].
  - case_bool_decide as H'.
    + exists ext. split; [reflexivity|]. split; [exact H'|]. right. auto.
    + auto.
Qed.

Lemma redirect_states_elem ext entry exit merge ms : forall d o, (d, o) ∈ redirect_states ext entry exit merge ms ->
  exists m, d = ExitOut m /\ m ∈ ms /\ m <> ext /\ invariant ext entry exit m = true /\ lookup m merge = Some o.
Proof.
  induction ms as [|m ms IH]; intros d o H; cbn in H; [inversion H|].
  assert ((d, o) ∈ redirect_states ext entry exit merge ms -> exists m', d = ExitOut m' /\ m' ∈ m :: ms /\ m' <> ext /\ invariant ext entry exit m' = true /\ lookup m' merge = Some o) as Hrec.
  { intros H'. destruct (IH _ _ H') as (m' & ? & ? & ? & ? & ?). exists m'. repeat split; try assumption. apply elem_of_list_further. assumption. }
  destruct (m =? ext) eqn:E; [exact (Hrec H)|]. destruct (invariant ext entry exit m) eqn:Ei; [|exact (Hrec H)].
  destruct (lookup m merge) as [o'|] eqn:El; [|exact (Hrec H)].
  apply elem_of_cons in H. destruct H as [H|H]; [|exact (Hrec H)].
  injection H as -> ->. exists m. repeat split; try assumption; [apply elem_of_list_here|]. intros ->. rewrite Nat.eqb_refl in E. discriminate E.
Qed.

Section Preserve.
  Context {data cell : Type} (ext : id).
  Implicit Types (env : nat -> value data cell) (outs : diverted -> value data cell).

  (** What the exit of the lambda carries of a memory node that is invariant. *)
  Lemma invariant_carries l args edges entry exit m r (m0 : id -> cell) :
    executes (data := data) ext l args edges -> routed ext l -> entry_split l = Some entry -> exit_merge l = Some exit ->
    invariant ext entry exit m = true -> last (results l) = Some r -> args (length (params l) - 1) = Memory m0 ->
    carries (edges r) m (m0 m).
  Proof.
    intros He Hr Hs Hm Hi Hl Ha. unfold invariant in Hi.
    pose proof (exit_source ext exit m) as Hx. pose proof (entry_source ext entry m) as Hy.
    destruct (orelse (lookup m exit) (lookup ext exit)) as [res|].
    - destruct Hx as (e & Hin & Hrep). destruct (orelse (split_output m entry) (split_output ext entry)) as [arg|].
      + destruct Hy as (e' & -> & Hin' & Hrep'). apply bool_decide_eq_true in Hi as ->.
        apply (ex_merge ext l args edges He exit e (SplitOut e') m r Hm Hin Hrep Hl).
        apply (ex_split ext l args edges He entry e' m Hs Hin' Hrep' m0 Ha).
      + exfalso. destruct Hy as [Hy Hy']. destruct (Hr entry exit m Hs Hm) as [?|?]; [|tauto|tauto].
        destruct Hrep as [->|(-> & H & _)]; [left; exact (elem_fst _ _ _ Hin)|right; exact H].
    - destruct Hx as [H1 H2]. exact (ex_keeps ext l args edges He exit m r Hm H1 H2 Hl m0 Ha).
  Qed.

  Theorem call_redirect_preserves otype l c ds env outs :
    redirect_call otype ext l c = Done ds -> length (outputs c) = length (results l) -> results l <> [] -> routed ext l ->
    calls ext l c env outs -> forall d o, (d, o) ∈ ds -> same ext c env outs d o.
  Proof.
    intros H Hlen Hne0 Hr Hc d o Hd. unfold redirect_call in H.
    destruct (length (operands c) =? length (params l)) eqn:Hop; cbn in H; [|injection H as <-; inversion Hd].
    apply Nat.eqb_eq in Hop.
    destruct (redirect_results otype l (operands c) 0 (outputs c)) as [ds1| |] eqn:H1; try discriminate H.
    destruct (ca_body ext l c env outs Hc) as (args & edges & He & Hargs & Hres).
    assert ((d, o) ∈ ds1 -> same ext c env outs d o) as Hfirst.
    { intros Hin. destruct (redirect_results_elem _ _ _ _ _ _ _ _ H1 Hin) as (k & i & -> & _ & _ & Hk & Hi & Ho).
      cbn. rewrite (Hres _ _ Hk), (ex_args ext l args edges He i Hi). symmetry. exact (Hargs _ _ Ho). }
    destruct (memory_diverted c ds1); [injection H as <-; exact (Hfirst Hd)|].
    destruct (exit_split c) as [ms|] eqn:Hms; [|injection H as <-; exact (Hfirst Hd)].
    destruct (entry_merge c) as [merge|] eqn:Hmerge; [|injection H as <-; exact (Hfirst Hd)].
    destruct (entry_split l) as [entry|] eqn:Hentry; [|injection H as <-; exact (Hfirst Hd)].
    destruct (exit_merge l) as [exit|] eqn:Hexit; [|injection H as <-; exact (Hfirst Hd)].
    injection H as <-. apply elem_of_app in Hd. destruct Hd as [Hd|Hd]; [exact (Hfirst Hd)|].
    destruct (redirect_states_elem _ _ _ _ _ _ _ Hd) as (m & -> & Hin & Hne & Hinv & Hlk).
    destruct (ca_merge ext l c env outs Hc merge m o m Hmerge (lookup_elem _ _ _ Hlk) (or_introl eq_refl)) as (om & m0 & Hom & Hm0 & Hcar).
    intros ms' n Hms' Hrepn. assert (n = m) as ->. { destruct Hrepn as [->|[-> _]]; [reflexivity|exfalso; exact (Hne eq_refl)]. }
    exists (m0 m). split; [exact Hcar|].
    assert (length (params l) > 0) as Hpos. { rewrite <- Hop. destruct (operands c); [discriminate Hom|cbn; lia]. }
    assert (args (length (params l) - 1) = Memory m0) as Hmem.
    { rewrite <- Hm0. apply Hargs. rewrite <- Hop, <- Hom, last_lookup. f_equal. lia. }
    (* the last result *)
    destruct (last (results l)) as [r|] eqn:Hlast.
    - apply (ca_split ext l c env outs Hc ms m m Hms Hin (or_introl eq_refl)).
      rewrite (Hres (length (outputs c) - 1) r).
      + exact (invariant_carries l args edges entry exit m r m0 He Hr Hentry Hexit Hinv Hlast Hmem).
      + rewrite Hlen, <- Hlast, last_lookup. f_equal. lia.
    - apply last_None in Hlast. congruence.
  Qed.
End Preserve.

(** A call of the lambda's type is redirected without an error. *)
Lemma redirect_results_done otype l ops outs : forall n, otype <$> ops = params l -> n + length outs <= length (results l) ->
  (forall k i t u, results l !! k = Some (Arg i) -> i < length (params l) -> n <= k -> outs !! (k - n) = Some (t, u) -> params l !! i = Some t) ->
  exists ds, redirect_results otype l ops n outs = Done ds.
Proof.
  induction outs as [|[t u] outs IH]; intros n Ho Hn Ht; cbn; [eauto|]. cbn in Hn.
  destruct (IH (S n) Ho) as [ds Hds]; [lia| |].
  { intros k i t' u' Hk Hi Hle Hl. apply (Ht k i t' u' Hk Hi); [lia|]. replace (k - n) with (S (k - S n)) by lia. exact Hl. }
  destruct (lookup_lt_is_Some_2 (results l) n) as [r Hr]; [lia|]. rewrite Hr. destruct r as [i|e|x]; [|eauto|eauto].
  destruct (length (params l) <=? i) eqn:Hl; [eauto|]. apply Nat.leb_gt in Hl.
  destruct (lookup_lt_is_Some_2 ops i) as [o Hop]. { rewrite <- Ho, fmap_length in Hl. exact Hl. }
  rewrite Hop. assert (divert_ok otype t u o = true) as ->.
  { unfold divert_ok. apply orb_true_iff. right. apply bool_decide_eq_true_2.
    assert (params l !! i = Some (otype o)) as H1. { rewrite <- Ho, list_lookup_fmap, Hop. reflexivity. }
    assert (params l !! i = Some t) as H2. { apply (Ht n i t u Hr Hl); [lia|]. replace (n - n) with 0 by lia. reflexivity. }
    congruence. }
  rewrite Hds. eauto.
Qed.

Theorem call_redirect_no_error otype ext l c : call_typed otype l c ->
  exists ds, redirect_call otype ext l c = Done ds.
Proof.
  intros (Ho & Hn & Ht). unfold redirect_call. destruct (length (operands c) =? length (params l)); cbn; [|eauto].
  destruct (redirect_results_done otype l (operands c) (outputs c) 0 Ho) as [ds ->].
  - lia.
  - intros k i t u Hk Hi _ Hl. rewrite Nat.sub_0_r in Hl. exact (Ht k i t u Hk Hi Hl).
  - destruct (memory_diverted c ds); [eauto|].
    destruct (exit_split c), (entry_merge c), (entry_split l), (exit_merge l); eauto.
Qed.

(** Every output whose function result is a function argument is redirected to
    the operand. *)
Theorem call_redirect_complete otype ext l c ds k i o :
  redirect_call otype ext l c = Done ds -> length (operands c) = length (params l) -> k < length (outputs c) ->
  results l !! k = Some (Arg i) -> operands c !! i = Some o -> (CallOut k, o) ∈ ds.
Proof.
  intros H Hop Hk Hr Ho. unfold redirect_call in H. rewrite Hop, Nat.eqb_refl in H. cbn in H.
  destruct (redirect_results otype l (operands c) 0 (outputs c)) as [ds1| |] eqn:E; try discriminate H.
  assert ((CallOut k, o) ∈ ds1) as Hin.
  { eapply redirect_results_complete; [exact E|lia|cbn; lia|exact Hr| |exact Ho]. rewrite <- Hop. eapply lookup_lt_Some. exact Ho. }
  destruct (memory_diverted c ds1); [injection H as <-; exact Hin|].
  destruct (exit_split c), (entry_merge c), (entry_split l), (exit_merge l); injection H as <-; try exact Hin.
  apply elem_of_app. left. exact Hin.
Qed.

(** The guard compares the numbers of the arguments only.  The function
      i32 g(i32 x) { return x; }
    called with a 64 bit argument: its result is the argument, and diverting
    the users of the 32 bit output to the 64 bit operand throws. *)
Definition identity : lambda := Lambda [32; 1; 2] [Arg 0; Arg 1; Arg 2] None None.
Theorem call_redirect_type_refuted : exists otype ext l c,
  length (operands c) = length (params l) /\ length (outputs c) = length (results l) /\
  redirect_call otype ext l c = TypeError.
Proof.
  exists (fun o => match o with 0 => 64 | S o => S o end), 0, identity, (Call [0; 1; 2] [(32, true); (1, true); (2, true)] None None).
  repeat split.
Qed.
(** The numbers of the results are not compared at all: a void function called
    as if it returned a value has an output without a function result, and the
    outputs are compared with the wrong results. *)
Theorem call_redirect_results_refuted :
  (exists otype ext l c, fmap otype (operands c) = params l /\ redirect_call otype ext l c = OutOfBounds) /\
  (exists otype ext l c, fmap otype (operands c) = params l /\ redirect_call otype ext l c = TypeError).
Proof.
  split.
  - exists S, 0, (Lambda [1; 2] [Inner 0; Inner 1] None None), (Call [0; 1] [(32, true); (1, true); (2, true)] None None). split; reflexivity.
  - exists S, 0, (Lambda [1; 2] [Inner 0; Arg 0; Arg 1] None None), (Call [0; 1] [(1, true); (2, true)] None None). split; reflexivity.
Qed.

(** The condition on the lambda cannot be left out: a memory node that is
    represented at the exit and not at the entry is taken to be invariant. *)
Theorem call_redirect_routed_refuted : exists otype l c ds (env : nat -> value nat bool) outs,
  redirect_call otype 0 l c = Done ds /\ call_typed otype l c /\ results l <> [] /\ calls 0 l c env outs /\
  exists d o, (d, o) ∈ ds /\ ~ same 0 c env outs d o.
Proof.
  exists (fun _ => 2), (Lambda [2] [Inner 1] (Some []) (Some [(5, Inner 0)])), (Call [0] [(2, true)] (Some [5]) (Some [(5, 1)])).
  exists [(ExitOut 5, 1)], (fun _ => Memory (fun _ => false)), (fun _ => Memory (fun n => n =? 5)).
  split; [reflexivity|]. split; [|split; [discriminate|split]].
  - split; [reflexivity|]. split; [reflexivity|]. intros n i t u Hn. destruct n as [|n]; cbn in Hn; discriminate Hn.
  - split.
    + exists (fun _ => Memory (fun _ => false)), (fun e => match e with Arg _ => Memory (fun _ => false) | _ => Memory (fun n => n =? 5) end).
      split; [|split].
      * split; cbn.
        -- reflexivity.
        -- intros entry e n H He. injection H as <-. inversion He.
        -- intros exit e o n r H He _ Hl c Hc. injection H as <-. injection Hl as <-. apply elem_of_list_singleton in He. injection He as -> ->. exact Hc.
        -- intros exit n r H Hn _ Hl m Hm. injection H as <-. injection Hl as <-. injection Hm as <-. cbn.
           apply Nat.eqb_neq. intros ->. apply Hn. apply elem_of_list_singleton. reflexivity.
      * intros i o Hi. reflexivity.
      * intros n r Hn. destruct n as [|n]; cbn in Hn; [injection Hn as <-; reflexivity|discriminate Hn].
    + intros merge e o n H He _. exists 0, (fun _ => false). split; [reflexivity|]. split; reflexivity.
    + intros ms e n H He _ x Hx. exact Hx.
  - exists (ExitOut 5), 1. split; [apply elem_of_list_here|]. intros H. destruct (H [5] 5 eq_refl (or_introl eq_refl)) as (x & H1 & H2). cbn in H1, H2. congruence.
Qed.
