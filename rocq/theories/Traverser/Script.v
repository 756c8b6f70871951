(** Executable scripts of edits and calls of next(), for the examples. *)
From stdpp Require Import base list gmap.
From Verif.Region Require Import Model Spec Proofs Proofs9 Properties.
From Verif.Traverser Require Import Model Spec.

Definition legalb (c : command) (s : region) : bool :=
  match c with
  | CCreateSimple p tys ops ins outs =>
    bool_decide (nodes s !! p = None) && bool_decide (length ins = length tys) && bool_decide (NoDup ins) && bool_decide (Forall (fun i => inputs s !! i = None) ins) &&
    bool_decide (NoDup (map fst outs)) && bool_decide (Forall (fun i => outputs s !! i = None) (map fst outs))
  | CCreateStructural p _ => bool_decide (nodes s !! p = None)
  | CAddInput p i _ _ => bool_decide (is_Some (nodes s !! p)) && bool_decide (inputs s !! i = None)
  | CRemoveInputs p ix => match nodes s !! p with Some nd => bool_decide (nd_inputs nd <> []) | None => false end
  | CAddOutput p o _ => bool_decide (is_Some (nodes s !! p)) && bool_decide (outputs s !! o = None)
  | CRemoveOutputs p _ => bool_decide (is_Some (nodes s !! p))
  | CAddArgument a _ => bool_decide (outputs s !! a = None)
  | CInsertArgument _ a _ => bool_decide (outputs s !! a = None)
  | CAddResult i _ _ => bool_decide (inputs s !! i = None)
  | CDivertTo i _ => bool_decide (is_Some (inputs s !! i))
  | CDivertUsers o _ => bool_decide (is_Some (outputs s !! o))
  | CRemoveNode p => match nodes s !! p with Some nd => bool_decide (nd_succ nd = 0) | None => false end
  | CRemoveArguments _ | CPruneArguments | CRemoveResults _ | CPrune => true
  end.
Lemma legalb_legal c s : legalb c s = true -> legal c s.
Proof.
  destruct c; cbn [legalb legal]; intros H; repeat (apply andb_true_iff in H as [H ?]); repeat match goal with K : bool_decide _ = true |- _ => apply bool_decide_eq_true in K end; auto.
  - unfold fresh_node, fresh_input, fresh_output. repeat (split; [assumption|]). assumption.
  - destruct (nodes s !! p) as [nd|]; [|discriminate]. apply bool_decide_eq_true in H. eauto.
  - unfold dead. destruct (nodes s !! p) as [nd|]; [|discriminate]. apply bool_decide_eq_true in H. eauto.
Qed.
(** build a region *)
Fixpoint build (l : list command) (s : region * unit) : option (region * unit) :=
  match l with [] => Some s | c :: l => if legalb c s.1 then match exec (fun _ _ t => t) c s with Ok s => build l s | _ => None end else None end.
Lemma build_built l : forall s s', reachable (fun _ _ t => t) s -> build l s = Some s' -> reachable (fun _ _ t => t) s'.
Proof.
  induction l as [|c l IH]; intros s s' H E; cbn in E; [now injection E as <-|]. destruct (legalb c s.1) eqn:L; [|discriminate]. destruct (exec _ c s) as [s1|s1|] eqn:Ec; [|discriminate..].
  eapply IH; [|exact E]. exact (reachable_step _ c s s1 H (legalb_legal _ _ L) Ec).
Qed.
Definition region_of (l : list command) : region := match build l (empty_region, tt) with Some s => s.1 | None => empty_region end.
Lemma region_of_built l : built (region_of l).
Proof.
  unfold region_of, built. destruct (build l (empty_region, tt)) as [s|] eqn:E.
  - exists s.2. destruct s as [r t]. eapply build_built; [|exact E]. exists tt. apply h_refl.
  - exists tt. exists tt. apply h_refl.
Qed.
(** a traversal with edits: [Some c] is a command, [None] a call of next() *)
Section Scripts.
  Context (obs : event -> region -> tracker -> tracker) (next : region * tracker -> option (option ptr * (region * tracker))).
  Fixpoint script (l : list (option command)) (s : region * tracker) (ids : list nat) : option ((region * tracker) * list nat) :=
    match l with
    | [] => Some (s, ids)
    | Some c :: l => if legalb c s.1 then match exec obs c s with Ok s => script l s ids | _ => None end else None
    | None :: l =>
      match next s with
      | Some (Some n, s) => match nodes s.1 !! n with Some nd => script l s (ids ++ [nd_id nd]) | None => None end
      | Some (None, s) => script l s ids
      | None => None
      end
    end.
End Scripts.
Definition td_script (fuel : nat) (r0 : region) (l : list (option command)) := script td_obs (td_next (next_id r0) fuel) l (r0, td_init r0) [].
Definition bu_script (r0 : region) (l : list (option command)) := script bu_obs (fun s => Some (bu_next s)) l (r0, bu_init r0) [].
Lemma td_script_run (ok : command -> region -> Prop) fuel r0 l s' ids' : (forall c r, Some c ∈ l -> ok c r) -> td_script fuel r0 l = Some (s', ids') -> td_run ok r0 s' ids'.
Proof.
  unfold td_script. intros Hok. assert (td_run ok r0 (r0, td_init r0) []) as H by constructor. revert H. generalize (r0, td_init r0), (@nil nat). induction l as [|[c|] l IH]; intros s ids H E; cbn [script] in E.
  - now injection E as <- <-.
  - destruct (legalb c s.1) eqn:L; [|discriminate]. destruct (exec td_obs c s) as [s1|s1|] eqn:Ec; [|discriminate..]. apply (IH ltac:(intros; apply Hok; now right) s1 ids); [|exact E].
    apply (td_edit ok r0 c s s1 ids H (legalb_legal _ _ L)); [apply Hok; now left|now left].
  - destruct (td_next (next_id r0) fuel s) as [[[n|] s1]|] eqn:En; [|eapply IH; [intros; apply Hok; now right| |exact E]; eapply td_ends; eassumption|discriminate]. destruct (nodes s1.1 !! n) as [nd|] eqn:Hn; [|discriminate].
    eapply IH; [intros; apply Hok; now right| |exact E]. eapply td_returns; eassumption.
Qed.
Lemma bu_script_run (ok : command -> region -> Prop) r0 l s' ids' : (forall c r, Some c ∈ l -> ok c r) -> bu_script r0 l = Some (s', ids') -> bu_run ok r0 s' ids'.
Proof.
  unfold bu_script. intros Hok. assert (bu_run ok r0 (r0, bu_init r0) []) as H by constructor. revert H. generalize (r0, bu_init r0), (@nil nat). induction l as [|[c|] l IH]; intros s ids H E; cbn [script] in E.
  - now injection E as <- <-.
  - destruct (legalb c s.1) eqn:L; [|discriminate]. destruct (exec bu_obs c s) as [s1|s1|] eqn:Ec; [|discriminate..]. apply (IH ltac:(intros; apply Hok; now right) s1 ids); [|exact E].
    apply (bu_edit ok r0 c s s1 ids H (legalb_legal _ _ L)); [apply Hok; now left|now left].
  - destruct (bu_next s) as [[n|] s1] eqn:En; [|eapply IH; [intros; apply Hok; now right| |exact E]; eapply bu_ends; eassumption]. destruct (nodes s1.1 !! n) as [nd|] eqn:Hn; [|discriminate].
    eapply IH; [intros; apply Hok; now right| |exact E]. eapply bu_returns; eassumption.
Qed.
(** decidable forms of the observations *)
Definition usesb (r : region) (m n : ptr) : bool :=
  match nodes r !! n with
  | Some nd => existsb (fun kv : ptr * input => bool_decide (in_owner kv.2 = ONode m) && match in_origin kv.2 with Some o => bool_decide (o ∈ nd_outputs nd) | None => false end) (map_to_list (inputs r))
  | None => false
  end.
Lemma usesb_uses r m n : usesb r m n = true -> uses r m n.
Proof.
  unfold usesb. destruct (nodes r !! n) as [nd|] eqn:Hn; [|discriminate]. intros H. apply existsb_exists in H as ([i x] & Hi & H). apply elem_of_list_In, elem_of_map_to_list in Hi. cbn in H.
  apply andb_true_iff in H as [H1 H2]. apply bool_decide_eq_true in H1. destruct (in_origin x) as [o|] eqn:Ho; [|discriminate]. apply bool_decide_eq_true in H2. exists nd, i, o, x. auto.
Qed.
Definition acyclicb (r : region) : bool := bool_decide (map_Forall (fun _ x => uses_smaller r x = true) (inputs r)).
Lemma acyclicb_acyclic r : Inv r -> acyclicb r = true -> acyclic r.
Proof. intros HI H. apply bool_decide_eq_true in H. now apply acyclic_ids. Qed.
Definition id_at (r : region) (n : ptr) : option nat := nd_id <$> nodes r !! n.
