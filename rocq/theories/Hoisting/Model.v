(** Node hoisting: jlm/llvm/opt/push.cpp, the move of one node, with RouteToRegion of jlm/rvsdg/node.cpp. *)
From stdpp Require Import base list gmap.
From Coq Require Import ZArith.
From Verif.LocalRegion Require Import Model.
From Verif.Unswitch Require Import Model.
From Verif.Sinking Require Import Spec.
Open Scope nat_scope.

(** the position of a region in one that it is nested in: index of the structural node, and of its subregion, from outside to inside *)
Notation path := (list (nat * nat)) (only parsing).
Definition position (r : region) (y : oid) : option nat := d ← list_find (fun a => a = y) (rargs r); Some d.1.
Definition simple_at (r : region) (i : nat) : bool := match rnodes r !! i with Some (Node (KSimple _) _ _) => true | _ => false end.
Section Types.
  (** [mem s p]: loop variable p of the loop with body s has MemoryStateType *)
  Context (mem : region -> nat -> bool).
  (** push.cpp:95-111 isInvariantMemoryStateLoopVar. TryGetOwnerNode<SimpleNode> is a null pointer for region results, region arguments and structural nodes *)
  Definition state_invariant (s : region) (p : nat) (y : oid) : bool :=
    mem s p && bool_decide (length (node_uses s y) + result_uses s y = 1) &&
    match rres s !! S p with
    | Some x =>
        bool_decide ((match node_uses s y with (i, _) :: _ => if simple_at s i then Some i else None | [] => None end) =
          match owner_index (rnodes s) x with Some i => if simple_at s i then Some i else None | None => None end)
    | None => false
    end.
  (** push.cpp:289-318 getOperandFromTargetRegion, one level: the origin of the input of the node n for argument y of its subregion s. None: std::logic_error is thrown, or the assertion fails *)
  Definition up (n : node) (s : region) (y : oid) : option oid :=
    p ← position s y;
    match nkind n with
    | KGamma _ => if decide (p = 0) then None else nins n !! p
    | KTheta _ => if bool_decide (rres s !! S p = Some y) || state_invariant s p y then nins n !! p else None
    | KSimple _ => None
    end.
  (** push.cpp:320-332 getOperandsFromTargetRegion, for node j of the region at the path *)
  Fixpoint operands (w : path) (j : nat) (r : region) : option (list oid) :=
    match w with
    | [] => n ← rnodes r !! j; Some (nins n)
    | (i, k) :: w => n ← rnodes r !! i; s ← bodies n !! k; xs ← operands w j s; mapM (up n s) xs
    end.
  Fixpoint node_at (w : path) (j : nat) (r : region) : option node :=
    match w with
    | [] => rnodes r !! j
    | (i, k) :: w => n ← rnodes r !! i; s ← bodies n !! k; node_at w j s
    end.
  Definition add_args (s : region) (news : list oid) : region := Region (rargs s ++ news) (rnodes s) (rres s).
  (** RouteToRegion (node.cpp:381-427) for the outputs [news]: GammaNode::AddEntryVar (gamma.cpp:259-275), ThetaNode::AddLoopVar (theta.cpp:48-61) on each level, from outside to inside; at the end divert_users (push.cpp:345-354).
      The node that was hoisted has no users after this; that Region::prune (region.cpp:326-338) removes it is part of this definition *)
  Definition add_vars (next k : nat) (f : list oid -> region -> region) (news : list oid) (n : node) : node :=
    match n with
    | Node (KGamma subs) ins outs =>
        Node (KGamma (imap (fun k' s => let a := seq (region_bound s) (length news) in let s := add_args s a in if decide (k' = k) then f a s else s) subs)) (ins ++ news) outs
    | Node (KTheta s) ins outs =>
        let a := seq (region_bound s) (length news) in
        let s := f a (add_args s a) in
        Node (KTheta (Region (rargs s) (rnodes s) (rres s ++ a))) (ins ++ news) (outs ++ seq next (length news))
    | _ => n
    end.
  Fixpoint route (w : path) (j : nat) (news : list oid) (r : region) : region :=
    match w with
    | [] => match rnodes r !! j with Some n => let f := divert (nouts n) news in Region (rargs r) (map (divert_node f) (delete j (rnodes r))) (map f (rres r)) | None => r end
    | (i, k) :: w => Region (rargs r) (alter (add_vars (region_bound r) k (fun a s => route w j a s) news) i (rnodes r)) (rres r)
    end.
  (** push.cpp:334-355 copyNodeToTargetRegion: node j of the region at path w is moved to r. None: an assertion fails, an exception is thrown, or the node is a structural one, which are not moved (push.cpp:268-276) *)
  Definition hoist (w : path) (j : nat) (r : region) : option region :=
    n ← node_at w j r; xs ← operands w j r;
    match w, n with
    | _ :: _, Node (KSimple o) _ outs =>
        let news := seq (region_bound r) (length outs) in
        Some (route w j news (Region (rargs r) (rnodes r ++ [Node (KSimple o) xs news]) (rres r)))
    | _, _ => None
    end.
  (** the target region is nested itself *)
  Fixpoint hoist_at (at_ w : path) (j : nat) (r : region) : option region :=
    match at_ with
    | [] => hoist w j r
    | (i, k) :: at_ =>
        n ← rnodes r !! i; s ← bodies n !! k; s' ← hoist_at at_ w j s;
        Some (Region (rargs r) (<[i := match n with Node (KGamma subs) ins outs => Node (KGamma (<[k := s']> subs)) ins outs | Node (KTheta _) ins outs => Node (KTheta s') ins outs | _ => n end]> (rnodes r)) (rres r))
    end.
End Types.
