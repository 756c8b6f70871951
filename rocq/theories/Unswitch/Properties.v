(** Loop unswitching: properties. *)
From stdpp Require Import base list gmap.
From Coq Require Import ZArith Lia.
From Verif.LocalRegion Require Import Model Spec Facts.
From Verif.Unswitch Require Import Model Spec Proofs1 Proofs2 Proofs3 Proofs4 Proofs5 Proofs6 Proofs7.
Open Scope Z_scope.

(** C83. Unswitching with the default heuristic: the region of the loop computes the same, for every meaning of the other operations; a loop that is not unswitched has a body that computes the same. *)
Theorem unswitching_preserves_region_partial (other : nat -> list val -> option (list val)) (content : val -> val) A l1 l2 res next tins touts body :
  let r := Region A (l1 ++ Node (KTheta body) tins touts :: l2) res in
  NoDup (names r) -> below next r -> (forall x, x ∈ tins -> x ∉ touts) -> length tins = length (rargs body) -> length touts = length tins ->
  wf_body body -> (forall g, is_unswitchable body = Some g -> switches body g) ->
  match unswitch_loop default_heuristic next tins body with
  | Kept body' => same other content r (Region A (l1 ++ Node (KTheta body') tins touts :: l2) res)
  | Replaced news repl _ => let f := divert touts repl in same other content r (Region A (map (divert_node f) l1 ++ news ++ map (divert_node f) l2) (map f res))
  | Thrown => True
  end.
Proof.
  intros r Hn Hb Hd Hl1 Hl2 Hw Hs. pose proof (unswitch_loop_ok other content A l1 l2 res next tins touts body Hn Hb Hd Hl1 Hl2 Hw Hs) as H. destruct (unswitch_loop _ _ _ _) as [b|news repl n|]; [|exact H|done]. by apply theta_same.
Qed.
(** C84. Sinking nodes into the gamma node (also when the loop is not unswitched then): the body computes the same, and has the same shape: the gamma node has the same predicate and number of subregions. *)
Theorem sinking_preserves_body (other : nat -> list val -> option (list val)) (content : val -> val) body g : wf_body body -> is_unswitchable body = Some g -> switches body g ->
  same other content body (sink body g).1 /\ wf_body (sink body g).1 /\ rargs (sink body g).1 = rargs body /\ head (rres (sink body g).1) = head (rres body) /\ switches (sink body g).1 (sink body g).2.
Proof.
  intros Hw Hu Hs. destruct (unswitchable_shape body g Hw Hu Hs) as (m & p & Hsh & Hp). destruct (sink_ok other content body g m p 2 Hsh Hp) as (Hs' & Hsame & Ha). split; [done|]. destruct Hs' as (W & (subs & es & outs & Hg & Hl) & _ & _ & _ & Hhd). destruct Hsh as (_ & _ & _ & _ & _ & Hhd0).
  split; [done|]. split; [done|]. split; [by rewrite Hhd, Hhd0|]. by exists subs, p, es, outs.
Qed.

(** a loop: x = 0; n1: c = f(x); n2: match c {0 -> 0} default 1; gamma: exit with x, or go on with g(x) *)
Definition body1 : region :=
  Region [0; 7]%nat [Node (KSimple (OOther 1)) [0]%nat [1]%nat; Node (KSimple (OMatch 1 [(0, 0%nat)] 1)) [1]%nat [2]%nat; Node (KSimple (OOther 3)) [7]%nat [5]%nat;
    Node (KGamma [Region [0; 1; 2]%nat [] [1]%nat; Region [0; 1; 2]%nat [Node (KSimple (OOther 2)) [1; 2]%nat [3]%nat] [3]%nat]) [2; 0; 5]%nat [3]%nat] [2; 3; 7]%nat.
Example unswitch_example : is_unswitchable body1 = Some 3%nat /\ unswitch_loop default_heuristic 10 [0; 1]%nat body1 =
  Replaced [Node (KSimple (OOther 1)) [0] [10]; Node (KSimple (OMatch 1 [(0%Z, 0)] 1)) [10] [11];
    Node (KGamma [Region [0; 1; 2; 3] [] [1; 2; 3];
      Region [0; 1; 2; 3] [Node (KTheta (Region [0; 1; 2] [Node (KSimple (OOther 3)) [2] [3]; Node (KSimple (OOther 2)) [0; 3] [4]; Node (KSimple (OOther 1)) [4] [5]; Node (KSimple (OMatch 1 [(0%Z, 0)] 1)) [5] [6]] [6; 4; 1; 1])) [1; 2; 3] [4; 5; 6]] [4; 5; 6]])
      [11; 0; 1; 1] [12; 13; 14]; Node (KSimple (OOther 3)) [14] [15]]%nat [12; 13]%nat 16.
Proof. split; vm_compute; reflexivity. Qed.
Ltac nodup := repeat (apply NoDup_cons; split; [intros Hc; repeat (apply elem_of_cons in Hc as [Hc|Hc]; [discriminate Hc|]); by apply elem_of_nil in Hc|]); apply NoDup_nil_2.
Ltac each H := repeat (apply elem_of_cons in H as [->|H]); try (by apply elem_of_nil in H).
Ltac inl := repeat (first [apply elem_of_list_here | apply elem_of_list_further]).
Lemma wf_body1 : wf_body body1 /\ forall g, is_unswitchable body1 = Some g -> switches body1 g.
Proof.
  split.
  - split; [split; [vm_compute; nodup|]|split; [|split]].
    + split; [intros n x Hn Hx; cbn in Hn; each Hn; cbn in Hx; each Hx; vm_compute; inl | intros x Hx; cbn in Hx; each Hx; vm_compute; inl].
    + exists (fun x => match x with 0 | 7 => 0 | 1 => 1 | 5 => 1 | 2 => 2 | _ => 3 end)%nat. split; [intros n x y Hn Hx Hy | intros x n y Hx Hn Hy]; cbn in Hn; each Hn; cbn in Hx, Hy; each Hx; each Hy; cbn; lia.
    + intros n Hn. cbn in Hn. each Hn; try done. split; [cbn; lia|]. intros r Hr. each Hr; (split; [|done]); (split; [vm_compute; nodup|]); (split; [intros n x Hn Hx; cbn in Hn; each Hn; cbn in Hx; each Hx; vm_compute; inl | intros x Hx; cbn in Hx; each Hx; vm_compute; inl]).
    + done.
  - intros g Hg. assert (E : is_unswitchable body1 = Some 3%nat) by (vm_compute; reflexivity). rewrite E in Hg. injection Hg as <-. by eexists _, _, _, _.
Qed.
(** the hypotheses hold for a region with this loop *)
Example unswitch_hypotheses : let r := Region [0; 1]%nat [Node (KTheta body1) [0; 1]%nat [2; 3]%nat] [2]%nat in NoDup (names r) /\ below 10 r /\ (forall x, x ∈ [0; 1]%nat -> x ∉ [2; 3]%nat).
Proof.
  split; [vm_compute; nodup|]. split; [split; [|split]|].
  - intros x Hx. cbn in Hx. each Hx; lia.
  - intros n x Hn Hx. cbn in Hn. each Hn; cbn in Hx; each Hx; vm_compute; inl.
  - intros x Hx. cbn in Hx. each Hx; vm_compute; inl.
  - intros x Hx Hy. each Hx; repeat (apply elem_of_cons in Hy as [Hy|Hy]; [discriminate Hy|]); by apply elem_of_nil in Hy.
Qed.

(** C83, refuted without [switches]: the match is passed to the gamma node as an entry variable, and something else is its predicate. IsUnswitchable accepts the loop, and the result is another. *)
Definition body2 : region :=
  Region [0]%nat [Node (KSimple (OInt 1 0)) [] [1]%nat; Node (KSimple (OMatch 1 [(0, 0%nat)] 1)) [1]%nat [2]%nat; Node (KSimple (OCtl 1)) [] [3]%nat;
    Node (KGamma [Region [0; 1]%nat [Node (KSimple (OInt 32 3)) [] [2]%nat] [2]%nat; Region [0; 1]%nat [Node (KSimple (OInt 32 5)) [] [2]%nat] [2]%nat]) [3; 2]%nat [4]%nat] [2; 4]%nat.
Theorem unswitch_entry_variable_refuted (other : nat -> list val -> option (list val)) (content : val -> val) : let r := Region [0]%nat [Node (KTheta body2) [0]%nat [1]%nat] [1]%nat in
  exists news repl next', unswitch_loop default_heuristic 10 [0]%nat body2 = Replaced news repl next' /\
  let r' := Region [0]%nat news (map (divert [1]%nat repl) [1]%nat) in
  runs other content r [VAny 0] [VInt 32 5] /\ (forall ws, runs other content r' [VAny 0] ws -> ws = [VInt 32 3]).
Proof.
  intros r. assert (E : exists news repl next', unswitch_loop default_heuristic 10 [0]%nat body2 = Replaced news repl next' /\ Node (KSimple (OInt 32 3)) [] [14]%nat ∈ news /\ map (divert [1]%nat repl) [1]%nat = [14]%nat).
  { eexists _, _, _. split; [vm_compute; reflexivity|]. split; [inl | vm_compute; reflexivity]. }
  destruct E as (news & repl & next' & E1 & E2 & E3). exists news, repl, next'. split; [done|]. intros r'. split.
  - apply runs_iff. exists (fun x => match x with 0%nat => VAny 0 | _ => VInt 32 5 end). split; [done|]. split; [|done]. intros n Hn. cbn in Hn. each Hn. constructor. apply l_exit. apply runs_iff. exists (fun x => match x with 0 => VAny 0 | 1 => VInt 1 0 | 2 => VCtl 0 | 3 => VCtl 1 | _ => VInt 32 5 end%nat). split; [done|]. split; [|done].
    intros n Hn. cbn in Hn. each Hn; try (constructor; reflexivity). eapply e_gamma; [reflexivity|]. apply runs_iff. exists (fun x => match x with 0 => content (VCtl 1) | 1 => VCtl 0 | _ => VInt 32 5 end%nat). split; [done|]. split; [|done]. intros n Hn. cbn in Hn. each Hn. by constructor.
  - intros ws Hr. apply runs_iff in Hr as (rho & _ & Hh & <-). unfold r' in *. cbn [rnodes rres] in *. rewrite E3. specialize (Hh _ E2). unfold holds in Hh. cbn in Hh. inversion Hh as [o vs ws H| |]. cbn in H. injection H as H. cbn. by rewrite H.
Qed.
(** C83, refuted for other heuristics: the match takes a constant of another gamma node, the roles of whose subregions are used for this one. *)
Definition body3 : region :=
  Region [0; 5]%nat [Node (KSimple (OCtl 1)) [] [1]%nat; Node (KGamma [Region [20]%nat [Node (KSimple (OInt 1 1)) [] [21]%nat] [21]%nat; Region [30]%nat [Node (KSimple (OInt 1 0)) [] [31]%nat] [31]%nat]) [1]%nat [2]%nat;
    Node (KSimple (OMatch 1 [(0, 0%nat)] 1)) [2]%nat [3]%nat;
    Node (KGamma [Region [0; 1; 2]%nat [] [1; 2]%nat; Region [0; 1; 2]%nat [] [2; 1]%nat]) [3; 0; 5]%nat [4; 6]%nat] [3; 4; 6]%nat.
(** in every execution of the loop: the values are left as they are *)
Lemma body3_runs (other : nat -> list val -> option (list val)) (content : val -> val) a b v ws : runs other content body3 [a; b] (v :: ws) -> v = VCtl 0 /\ ws = [a; b].
Proof.
  intros H. apply runs_iff in H as (rho & E1 & Hh & E2). cbn in E1, E2. injection E1 as Ea Eb. injection E2 as Ev <-. unfold body3 in Hh. cbn [rnodes] in Hh. rewrite !hold_cons in Hh. destruct Hh as (H1 & H2 & H3 & H4 & _). unfold holds in *. cbn [nkind nins nouts map] in *.
  inversion H1 as [o vs us Ho| |]; subst. cbn in Ho. injection Ho as Ho. rewrite <-Ho in H2. apply gamma_inv in H2 as (i & r & vs0 & E & Hi & Hr). injection E as <- <-. cbn in Hi. injection Hi as <-. apply runs_iff in Hr as (rho1 & _ & Hh & E). cbn in E. injection E as E. unfold hold in Hh. specialize (Hh _ (elem_of_list_here _ _)). unfold holds in Hh. cbn in Hh. inversion Hh as [o vs us Ho1| |]; subst. cbn in Ho1. injection Ho1 as Ho1.
  rewrite <-E, <-Ho1 in H3. inversion H3 as [o vs us Ho2| |]; subst. cbn in Ho2. injection Ho2 as Ho2. split; [done|]. rewrite <-Ho2 in H4. apply gamma_inv in H4 as (i & r & vs0 & E3 & Hi & Hr). injection E3 as <- <-. cbn in Hi. injection Hi as <-. apply runs_iff in Hr as (rho2 & E4 & _ & E5). cbn in E4, E5. injection E4 as _ E6 E7. injection E5 as E8 E9. by rewrite <-E6, <-E7, E8, E9.
Qed.
Theorem unswitch_other_heuristic_refuted (other : nat -> list val -> option (list val)) (content : val -> val) a b : let r := Region [0; 1]%nat [Node (KTheta body3) [0; 1]%nat [2; 3]%nat] [2; 3]%nat in
  is_unswitchable body3 = Some 3%nat /\ switches body3 3 /\
  exists news repl next', unswitch_loop (fun _ _ => true) 10 [0; 1]%nat body3 = Replaced news repl next' /\
  let r' := Region [0; 1]%nat news (map (divert [2; 3]%nat repl) [2; 3]%nat) in
  (forall ws, runs other content r [a; b] ws -> ws = [a; b]) /\ runs other content r' [a; b] [b; a].
Proof.
  intros r. split; [vm_compute; reflexivity|]. split; [by eexists _, _, _, _|]. eexists _, _, _. split; [vm_compute; reflexivity|]. intros r'. split.
  - intros ws Hr. apply runs_iff in Hr as (rho & E1 & Hh & <-). cbn in E1. injection E1 as Ea Eb. specialize (Hh _ (elem_of_list_here _ _)). unfold holds in Hh. cbn in Hh. rewrite Ea, Eb in Hh. inversion Hh as [| |bd vs us Hl]; subst. cbn. inversion Hl as [bd vs us Hr|bd vs us ws Hr _]; subst; apply body3_runs in Hr as [H1 H2]; [done|discriminate H1].
  - assert (Hc : eval other content (KGamma [Region [20]%nat [Node (KSimple (OInt 1 1)) [] [21]%nat] [21]%nat; Region [30]%nat [Node (KSimple (OInt 1 0)) [] [31]%nat] [31]%nat]) [VCtl 1] [VInt 1 0]).
    { eapply e_gamma; [reflexivity|]. apply runs_iff. exists (fun x => match x with 30 => content (VCtl 1) | _ => VInt 1 0 end%nat). split; [done|]. split; [|done]. intros n Hn. cbn in Hn. each Hn. by constructor. }
    apply runs_iff. exists (fun x => match x with 0 | 13 => a | 1 | 14 => b | 10 => VCtl 1 | 11 => VInt 1 0 | 12 => VCtl 0 | _ => VInt 1 0 end)%nat. unfold r'. cbn [rargs rnodes rres]. split; [done|]. split; [|done]. intros n Hn. each Hn; try (constructor; reflexivity); [exact Hc|].
    eapply e_gamma; [reflexivity|]. apply runs_iff. exists (fun x => match x with 0 => content (VCtl 0) | 1 | 3 => a | _ => b end)%nat. split; [done|]. split; [|done]. intros n Hn. cbn in Hn. each Hn. constructor. apply l_exit. apply runs_iff.
    exists (fun x => match x with 0 => a | 1 => b | 2 => VInt 1 1 | 3 => VCtl 1 | 4 => VInt 1 0 | _ => VCtl 0 end)%nat. split; [done|]. split; [|done]. intros n Hn. cbn in Hn. each Hn; try (constructor; reflexivity). exact Hc.
Qed.
(** C83, refuted: it does not always come through. A subregion of the gamma node uses the match content argument; or a node without users takes an output of the gamma node: a lookup in the substitution map throws. *)
Definition body4 : region :=
  Region [0]%nat [Node (KSimple (OOther 1)) [0]%nat [1]%nat; Node (KSimple (OMatch 1 [(0, 0%nat)] 1)) [1]%nat [2]%nat; Node (KGamma [Region [0; 1]%nat [] [1]%nat; Region [0; 1]%nat [Node (KSimple (OOther 2)) [0; 1]%nat [3]%nat] [3]%nat]) [2; 0]%nat [3]%nat] [2; 3]%nat.
Definition body5 : region :=
  Region [0]%nat [Node (KSimple (OOther 1)) [0]%nat [1]%nat; Node (KSimple (OMatch 1 [(0, 0%nat)] 1)) [1]%nat [2]%nat; Node (KGamma [Region [0; 1]%nat [] [1]%nat; Region [0; 1]%nat [Node (KSimple (OOther 2)) [1]%nat [3]%nat] [3]%nat]) [2; 0]%nat [3]%nat;
    Node (KSimple (OOther 3)) [3]%nat [4]%nat] [2; 3]%nat.
Theorem unswitch_throws_refuted : (switches body4 2 /\ unswitch_loop default_heuristic 10 [0]%nat body4 = Thrown) /\ (switches body5 2 /\ unswitch_loop default_heuristic 10 [0]%nat body5 = Thrown).
Proof. split; (split; [by eexists _, _, _, _ | vm_compute; reflexivity]). Qed.

(** C85. Predicate correlation: whatever the values in the loop's body are, when the gamma node of the correlation takes its subregion k, the loop's predicate is the constant of subregion k; or, what the match makes of that constant. *)
Theorem correlation_constants (other : nat -> list val -> option (list val)) (content : val -> val) body c rho p : wf_body body -> correlate body = Some c -> hold other content rho (rnodes body) -> head (rres body) = Some p ->
  exists subs q es outs k, rnodes body !! corr_gamma c = Some (Node (KGamma subs) (q :: es) outs) /\ rho q = VCtl k /\
    match c with
    | ControlConstant _ alts => exists z, alts !! k = Some z /\ (rho p = VCtl (Z.to_nat z) \/ exists w, rho p = VInt w z)
    | MatchConstant _ m d alts => exists z, alts !! k = Some z /\ rho p = VCtl (alternative m d z)
    | MatchCorrelation g => True
    end.
Proof.
  intros Hw Hc Hh Hp. destruct (correlate_sound other content body c rho p Hw Hc Hh Hp) as (g & Hg & Hgg & q & k & Hq & Hk & Hcc). destruct g as [[|subs|] ins outs]; try done. cbn in Hq. destruct ins as [|q' es]; [done|]. cbn in Hq. injection Hq as ->. exists subs, q, es, outs, k. split; [done|]. split; [done|].
  destruct c as [g alts|g m d alts|g]; [|done|done]. destruct Hcc as (z & Hz & Hv). exists z. split; [done|]. destruct Hv as [(j & -> & Hj)|Hv]; [left; by rewrite Nat2Z.id | by right].
Qed.
(** C86. The pass: as often as the predicate of a loop is redirected, the body computes the same, provided that its predicate is always a control value; and redirecting comes to an end. *)
Theorem predicate_correlation_preserves_body (other : nat -> list val -> option (list val)) (content : val -> val) body : wf_body body -> (forall vs v ws, runs other content body vs (v :: ws) -> exists k, v = VCtl k) ->
  (forall fuel, same other content body (correlate_theta fuel body)) /\ exists fuel, redirect (correlate_theta fuel body) = None.
Proof. intros Hw Ht. split; [intros fuel; by apply correlate_theta_same | by apply (correlate_theta_stops other content)]. Qed.
(** ... and it does what it is for *)
Definition body6 : region :=
  Region [0]%nat [Node (KSimple (OOther 1)) [0]%nat [1]%nat; Node (KSimple (OMatch 1 [(1, 1%nat)] 0)) [1]%nat [2]%nat; Node (KGamma [Region [0; 1]%nat [Node (KSimple (OInt 8 7)) [] [2]%nat] [2; 1]%nat; Region [0; 1]%nat [Node (KSimple (OInt 8 9)) [] [2]%nat] [2; 1]%nat]) [2; 0]%nat [3; 4]%nat;
    Node (KSimple (OMatch 8 [(7, 0%nat)] 1)) [3]%nat [5]%nat] [5; 4]%nat.
Example correlation_example : correlate body6 = Some (MatchConstant 2 [(7, 0%nat)] 1 [7; 9]) /\ correlate_theta 5 body6 = Region [0]%nat (rnodes body6) [2; 4]%nat /\ correlate (correlate_theta 5 body6) = Some (MatchCorrelation 2).
Proof. split; [|split]; vm_compute; reflexivity. Qed.
(** C87. Roles of subregions: if the alternatives are 0 and 1 in some order, or the gamma node decides about the loop's predicate, the loop ends exactly after the exit subregion of the gamma node, and is repeated exactly after the repetition subregion. *)
Theorem roles_sound (other : nat -> list val -> option (list val)) (content : val -> val) body c e r rho p k : wf_body body -> correlate body = Some c -> roles c = Some (e, r) -> hold other content rho (rnodes body) -> head (rres body) = Some p -> rho p = VCtl k ->
  match c with
  | ControlConstant _ alts => alts = [0; 1] \/ alts = [1; 0]
  | MatchConstant _ m d alts => map (alternative m d) alts = [0; 1]%nat \/ map (alternative m d) alts = [1; 0]%nat
  | MatchCorrelation g => (k < 2)%nat /\ forall n, rnodes body !! g = Some n -> head (nins n) = Some p
  end ->
  exists subs q es outs i, rnodes body !! corr_gamma c = Some (Node (KGamma subs) (q :: es) outs) /\ rho q = VCtl i /\ ((i = e /\ k = 0) \/ (i = r /\ k = 1))%nat.
Proof.
  intros Hw Hc Hr Hh Hp Hk Hal. destruct (correlation_constants other content body c rho p Hw Hc Hh Hp) as (subs & q & es & outs & i & Hg & Hq & Hcc). exists subs, q, es, outs, i. split; [done|]. split; [done|]. destruct c as [g alts|g m d alts|g]; cbn [roles corr_gamma] in *.
  - destruct Hcc as (z & Hz & Hv). rewrite Hk in Hv. assert (Hkz : k = Z.to_nat z) by (destruct Hv as [Hv|(w & Hv)]; [by injection Hv|done]). destruct Hal as [-> | ->]; cbn in Hr; injection Hr as <- <-; destruct i as [|[|i]]; cbn in Hz; try done; injection Hz as <-; cbn in Hkz; tauto.
  - destruct Hcc as (z & Hz & Hv). rewrite Hk in Hv. injection Hv as ->. destruct alts as [|a [|b [|]]]; try done. change (alternative_of m d a) with (alternative m d a) in Hr. cbn [map] in Hal. destruct Hal as [Hal|Hal]; injection Hal as Ha Hb; rewrite Ha in Hr; cbn in Hr; injection Hr as <- <-; destruct i as [|[|i]]; cbn in Hz; try done; injection Hz as <-; tauto.
  - destruct Hal as (Hk2 & Hal). injection Hr as <- <-. specialize (Hal _ Hg). cbn in Hal. injection Hal as ->. rewrite Hk in Hq. injection Hq as ->. lia.
Qed.
(** ... refuted for alternatives that are not 0 and 1: whichever subregion the gamma node takes, the loop ends; the roles say that it is repeated after the subregion 1. In the other loop, it never ends; the roles say that it does after the subregion 1. *)
Definition body7 (a : nat) : region :=
  Region [0; 1]%nat [Node (KGamma [Region [0; 1]%nat [Node (KSimple (OCtl a)) [] [2]%nat] [2; 1]%nat; Region [0; 1]%nat [Node (KSimple (OCtl a)) [] [2]%nat] [2; 1]%nat]) [0; 1]%nat [2; 3]%nat] [2; 0; 3]%nat.
Theorem roles_refuted (other : nat -> list val -> option (list val)) (content : val -> val) :
  ((correlate (body7 0) ≫= roles) = Some (0, 1)%nat /\ forall k v, (k < 2)%nat -> runs other content (body7 0) [VCtl k; v] [VCtl 0; VCtl k; v]) /\
  ((correlate (body7 1) ≫= roles) = Some (1, 0)%nat /\ forall k v, (k < 2)%nat -> runs other content (body7 1) [VCtl k; v] [VCtl 1; VCtl k; v]).
Proof.
  assert (H : forall a k v, (k < 2)%nat -> runs other content (body7 a) [VCtl k; v] [VCtl a; VCtl k; v]).
  { intros a k v Hk. apply runs_iff. exists (fun x => match x with 0 => VCtl k | 2 => VCtl a | _ => v end)%nat. split; [done|]. split; [|done]. intros n Hn. cbn in Hn. each Hn. unfold holds. cbn. eapply (e_gamma _ _ _ k (Region [0; 1]%nat [Node (KSimple (OCtl a)) [] [2]%nat] [2; 1]%nat)); [by destruct k as [|[|k]]; [| |lia]|].
    apply runs_iff. exists (fun x => match x with 0 => content (VCtl k) | 1 => v | _ => VCtl a end)%nat. split; [done|]. split; [|done]. intros n Hn. cbn in Hn. each Hn. by constructor. }
  split; (split; [vm_compute; reflexivity|]); intros k v; apply H.
Qed.
(** C88. Two gamma nodes: if only gamma nodes use the match, the first one is correlated exactly with the first user that is another node. *)
Theorem gamma_gamma_correlation g1 users : (forall u, u ∈ users -> exists g, u = UGamma g) ->
  (forall g, gamma_gamma g1 users = Correlated g <-> exists l1 l2, users = l1 ++ UGamma g :: l2 /\ g <> g1 /\ forall u, u ∈ l1 -> u = UGamma g1) /\
  (gamma_gamma g1 users = NoCorrelation <-> forall u, u ∈ users -> u = UGamma g1).
Proof.
  induction users as [|u users IH]; intros Hu.
  - split; [intros g; split; [done|intros (l1 & l2 & E & _); by destruct l1] | split; [intros _ u H; by apply elem_of_nil in H | done]].
  - destruct (Hu u (elem_of_list_here _ _)) as [h ->]. destruct IH as [IH1 IH2]; [intros u Hin; apply Hu; by right|]. cbn [gamma_gamma]. destruct (decide (h = g1)) as [->|Hne].
    + split.
      * intros g. rewrite IH1. split.
        -- intros (l1 & l2 & -> & Hg & Hl). exists (UGamma g1 :: l1), l2. split; [done|]. split; [done|]. intros u Hin. apply elem_of_cons in Hin as [->|Hin]; [done|by apply Hl].
        -- intros (l1 & l2 & E & Hg & Hl). destruct l1 as [|u l1]; [injection E as E _; by subst|]. injection E as <- ->. exists l1, l2. split; [done|]. split; [done|]. intros u Hin. apply Hl. by right.
      * rewrite IH2. split; intros H u Hin; [apply elem_of_cons in Hin as [->|Hin]; [done|by apply H] | apply H; by right].
    + split.
      * intros g. split; [intros [= ->]; exists [], users; split; [done|]; split; [done|]; intros u Hin; by apply elem_of_nil in Hin|]. intros (l1 & l2 & E & Hg & Hl). destruct l1 as [|u l1]; [by injection E as -> _|]. injection E as <- _. specialize (Hl _ (elem_of_list_here _ _)). injection Hl as ->. done.
      * split; [done|]. intros H. specialize (H _ (elem_of_list_here _ _)). by injection H as ->.
Qed.
(** ... refuted in general: a user of the match that is no gamma node, such as the result of a loop, is dereferenced as one *)
Theorem gamma_gamma_null_refuted g1 l g2 : gamma_gamma g1 (UGamma g1 :: UElse :: UGamma g2 :: l) = NullDereference.
Proof. cbn [gamma_gamma]. by rewrite decide_True. Qed.
Example gamma_gamma_example : gamma_gamma 1 [UGamma 1; UGamma 1; UGamma 4; UGamma 3] = Correlated 4.
Proof. done. Qed.
