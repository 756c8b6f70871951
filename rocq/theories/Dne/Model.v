(** Model of jlm/llvm/opt/DeadNodeElimination.cpp *)
From stdpp Require Import base list list_numbers fin_sets gmap.
From Verif.Rvsdg Require Import Model Spec.

(** DeadNodeElimination.cpp:38-80 Context: SimpleNodes_ and Outputs_. *)
Record ctx := Ctx { cnodes : gset nat; couts : gset nat }.
Definition mark_node (id : nat) (c : ctx) : ctx := Ctx ({[id]} ∪ cnodes c) (couts c).
Definition mark_out (o : oid) (c : ctx) : ctx := Ctx (cnodes c) ({[o]} ∪ couts c).

(** DeadNodeElimination.cpp:193-333 markOutput: the outputs marked next after an output that is not the output of a simple node,
    in the order of the code. The case distinction on the owner of the output is the one of [Spec.view]. *)
Definition mark_next (w : view) : list oid :=
  match w with
  | VSimple _ _ _ _ _ => []
  | VGamma p brs => p :: brs.*1.*1                    (* 232-240 *)
  | VGammaArg e => [e]                                (* 242-246 *)
  | VTheta pred post inp _ => [pred; post; inp]       (* 248-255 *)
  | VThetaArg out inp => [out; inp]                   (* 257-263 *)
  | VLambda _ _ res => res                            (* 265-272 *)
  | VFunArg => []                                     (* 283-284 *)
  | VDelta _ res => take 1 res                        (* 316-321 *)
  | VCopy x => [x]                                    (* 276-281, 287-314, 323-328 *)
  | VImport _ => []                                   (* 227-230 *)
  end.

Section Mark.
  Context (m : gmap nat view).
  (** DeadNodeElimination.cpp:193-333 markOutput. The C++ recursion is bounded by [fuel] here; [None]: fuel exhausted. *)
  Fixpoint mark (fuel : nat) (o : oid) (c : ctx) : option ctx :=
    match fuel with
    | 0 => None
    | S fuel =>
        let marks := foldl (fun c o => c ← c; mark fuel o c) in
        match m !! o with
        | None => Some c
        | Some (VSimple id load op k ins) =>
            if decide (id ∈ cnodes c) then Some c
            else if load && negb (k =? 0) then
              if decide (o ∈ couts c) then Some c
              else marks (Some (mark_out o c)) (option_list (ins !! k))
            else marks (Some (mark_node id c)) ins
        | Some w => if decide (o ∈ couts c) then Some c else marks (Some (mark_out o c)) (mark_next w)
        end
    end.
  (** DeadNodeElimination.cpp:184-191 markRegion *)
  Definition mark_region (fuel : nat) (r : region) (c : ctx) : option ctx :=
    foldl (fun c o => c ← c; mark fuel o c) (Some c) (rres r).
End Mark.

Section Sweep.
  Context (c : ctx).
  Definition alive_out (o : oid) : bool := bool_decide (o ∈ couts c).
  (** DeadNodeElimination.cpp:355-372, the local isAlive of sweepRegion *)
  Definition alive_node (n : node) : bool :=
    match nkind n with
    | Simple _ | Load _ => bool_decide (nid n ∈ cnodes c)
    | _ => existsb alive_out (nouts n)
    end.
  (** DeadNodeElimination.cpp:530-543 removeNode: a load passes its memory states on (LoadOperation::MapMemoryStateOutputToInput);
      [None]: an output still has users (JLM_ASSERT at 539 and in ~Output, node.cpp). *)
  Definition remove_node (n : node) (ns : list node) (res : list oid) : option (list node * list oid) :=
    let st := match nkind n with
              | Load _ => foldl (fun st '(o, x) => divert_users o x st.1 st.2) (ns, res) (tail (zip (nouts n) (nins n)))
              | _ => (ns, res)
              end in
    if forallb (fun o => negb (is_used o st.1 st.2)) (nouts n) then Some st else None.
  (** DeadNodeElimination.cpp:353-388 sweepRegion: the nodes bottom-up, i.e. from the end of the list. [f] sweeps an alive node.
      The assertions of GammaNode::RemoveExitVars, ThetaNode::RemoveLoopVars, PhiNode::RemoveFixVars that the outputs they remove
      are dead are evaluated here, where the users of the outputs are at hand. The assertion at 387 is not part of the model. *)
  Definition outs_ok (n : node) (ns : list node) (res : list oid) : bool :=
    match nkind n with
    | Gamma => forallb (fun o => alive_out o || negb (is_used o ns res)) (nouts n)
    | Theta | Phi => forallb (fun '(o, a) => alive_out o || alive_out a || negb (is_used o ns res))
                       (zip (nouts n) (rargs (nth 0 (nsubs n) (Region [] [] []))))
    | _ => true
    end.
  Definition sweep_list (f : node -> option node) (res : list oid) : list node -> option (list node * list oid) :=
    fix go ns := match ns with
    | [] => Some ([], res)
    | n :: ns => st ← go ns;
        if alive_node n then
          if outs_ok n st.1 st.2 then n' ← f n; Some (n' :: st.1, st.2) else None
        else remove_node n st.1 st.2
    end.
  (** jlm/rvsdg/region.cpp:326-330 Region::prune(false): nodes without users are removed until there are none *)
  Definition prune_list (res : list oid) : list node -> list node :=
    fix go ns := match ns with
    | [] => []
    | n :: ns => let ns' := go ns in if existsb (fun o => is_used o ns' res) (nouts n) then n :: ns' else ns'
    end.

  Definition region0 := Region [] [] [].
  Definition redirect (dead : nat -> bool) (args res : list oid) : list oid :=
    imap (fun i x => if dead i then nth i args 0 else x) res.
  (** LambdaNode::PruneLambdaInputs (lambda.hpp:245-316), DeltaNode::PruneDeltaInputs (delta.hpp:277-354): [n] arguments are not context variables *)
  Definition prune_inputs (n : nat) (ins : list oid) (r : region) : option (list oid * region) :=
    let dead i := (n <=? i) && unused (nth i (rargs r) 0) r in
    r' ← remove_arguments dead r; Some (drop_at (fun i => dead (n + i)) ins, r').

  (** 390-418 sweepStructuralNode, 420-454 sweepGamma, 456-481 sweepTheta, 483-488 sweepLambda, 490-519 sweepPhi, 521-528 sweepDelta.
      The second argument of [sweep_region]: the results of the region, after the changes its node has made to them. *)
  Fixpoint sweep_node (n : node) : option node :=
    let 'Node id k ins outs subs := n in
    match k with
    | Simple _ | Load _ => Some n
    | Gamma =>
        let dead i := negb (alive_out (nth i outs 0)) in
        subs' ← mapM (fun r => sweep_region r (drop_at dead (rres r))) subs;
        let dead_in i := (1 <=? i) && forallb (fun r => negb (alive_out (nth i (rargs r) 0))) subs' in
        subs'' ← mapM (remove_arguments dead_in) subs';
        Some (Node id k (drop_at dead_in ins) (drop_at dead outs) subs'')
    | Theta =>
        match subs with [r] =>
          let dead i := negb (alive_out (nth i (rargs r) 0)) && negb (alive_out (nth i outs 0)) in
          r1 ← sweep_region r (take 1 (rres r) ++ redirect dead (rargs r) (drop 1 (rres r)));
          (* ThetaNode::RemoveLoopVars, theta.cpp:63-97 *)
          r2 ← remove_arguments dead (remove_results (fun i => (1 <=? i) && dead (i - 1)) r1);
          Some (Node id k (drop_at dead ins) (drop_at dead outs) [r2])
        | _ => None end
    | Lambda nargs =>
        match subs with [r] =>
          r1 ← sweep_region r (rres r);
          '(ins', r2) ← prune_inputs nargs ins r1;
          Some (Node id k ins' outs [r2])
        | _ => None end
    | Phi =>
        match subs with [r] =>
          let dead i := negb (alive_out (nth i outs 0)) && negb (alive_out (nth i (rargs r) 0)) in
          let nfix := length (rres r) in
          r1 ← sweep_region r (redirect dead (rargs r) (rres r));
          (* PhiNode::RemoveContextVars, RemoveFixVars, Phi.cpp:150-188 *)
          '(ins', r2) ← prune_inputs nfix ins r1;
          r3 ← remove_arguments (fun i => (i <? nfix) && dead i) (remove_results dead r2);
          Some (Node id k ins' (drop_at dead outs) [r3])
        | _ => None end
    | Delta =>
        match subs with [Region args res ns] =>
          '(ins', r2) ← prune_inputs 0 ins (Region args res (prune_list res ns));
          Some (Node id k ins' outs [r2])
        | _ => None end
    end
  with sweep_region (r : region) (res : list oid) : option region :=
    let 'Region args _ ns := r in
    st ← sweep_list sweep_node res ns; Some (Region args st.2 st.1).

  (** DeadNodeElimination.cpp:335-350 sweepRvsdg *)
  Definition sweep_rvsdg (t : region) : option region :=
    t1 ← sweep_region t (rres t);
    remove_arguments (fun i => negb (alive_out (nth i (rargs t1) 0))) t1.
End Sweep.

(** DeadNodeElimination.cpp:148-168 Run *)
Definition fuel_for (t : region) : nat := S (2 * length (defs t)).
Definition dne (t : region) : option region :=
  c ← mark_region (list_to_map (defs t)) (fuel_for t) t (Ctx ∅ ∅);
  sweep_rvsdg c t.
