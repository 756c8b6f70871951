(** Function inlining: jlm/llvm/opt/inlining.cpp, the inlining of one call. *)
From stdpp Require Import base list gmap.
From Coq Require Import ZArith.
From Verif.LocalRegion Require Import Model.
From Verif.Unswitch Require Import Model.
From Verif.Sinking Require Import Spec.
From Verif.Hoisting Require Import Model.
Open Scope nat_scope.

Section Inline.
  (** bar: the number of IOBarrierOperation; [ptr p]: the type of the callee's argument p (function arguments first, then context variables, as in lambda.cpp:58-67 and 120-129) is PointerType, or contains it *)
  Context (bar : nat) (ptr : nat -> bool).
  (** inlining.cpp:275-281 and 288-295: what the copy of the body takes for the arguments p, p + 1, ...: the operands, those that are pointers behind a barrier. The code makes the barriers of the context variables after
      these are routed to the region; all nodes are made at once here *)
  Fixpoint barriers (io : oid) (xs : list oid) (p next : nat) : list node * list oid :=
    match xs with
    | [] => ([], [])
    | x :: xs =>
        if ptr p then let '(l, ys) := barriers io xs (S p) (S next) in (Node (KSimple (OOther bar)) [x; io] [next] :: l, next :: ys)
        else let '(l, ys) := barriers io xs (S p) next in (l, x :: ys)
    end.
  (** inlining.cpp:257-343 inlineCall, in the call's region: node j is the call, its inputs are the function and the operands (call.hpp:333-339: the second last one is the I/O state); deps: the callee's context variables in this
      region. None: an assertion fails, or SubstitutionMap::lookup throws. Not modelled: the allocas of the callee that are hoisted if the call is nested (hoistInlinedAllocas), and the memory states that are routed past the
      merge and split nodes around the call (tryRerouteMemoryStateMergeAndSplit) *)
  Definition splice (callee : region) (j : nat) (deps : list oid) (r : region) : option region :=
    match rnodes r !! j with
    | Some (Node (KSimple (OOther _)) (_ :: ops) outs) =>
        if decide (length (rargs callee) = length ops + length deps /\ length (rres callee) = length outs /\ 2 <= length ops) then
          io ← ops !! (length ops - 2);
          let next := region_bound r in
          let '(bs, tgts) := barriers io (ops ++ deps) 0 next in
          '(copies, s, _) ← copy_nodes (rnodes callee) (insert_all (rargs callee) tgts ∅) (next + length bs);
          news ← mapM (fun x => s !! x) (rres callee);
          let f := divert outs news in
          Some (Region (rargs r) (map (divert_node f) (delete j (rnodes r) ++ bs ++ copies)) (map f (rres r)))
        else None
    | _ => None
    end.
  (** the call is in the region at path w; RouteToRegion (node.cpp:381-427) brings the values [deps] from this region to the call's *)
  Fixpoint inline (callee : region) (w : list (nat * nat)) (j : nat) (deps : list oid) (r : region) : option region :=
    match w with
    | [] => splice callee j deps r
    | (i, k) :: w =>
        n ← rnodes r !! i; s ← bodies n !! k;
        let a := seq (region_bound s) (length deps) in
        s' ← inline callee w j a (add_args s a);
        Some (Region (rargs r) (alter (add_vars (region_bound r) k (fun _ _ => s') deps) i (rnodes r)) (rres r))
    end.
  (** inlining.cpp:102-118 routeContextVariablesToRegion: r is the caller's region, it gets the m context variables of the callee as new ones (LambdaNode::AddContextVar, lambda.cpp:131-138), their arguments come last *)
  Definition inline_call (callee : region) (m : nat) (w : list (nat * nat)) (j : nat) (r : region) : option region :=
    let a := seq (region_bound r) m in inline callee w j a (add_args r a).
End Inline.
