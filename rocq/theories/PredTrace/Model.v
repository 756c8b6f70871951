(* Model of jlm/rvsdg/RegionPredicateTrace.cpp and .hpp: the trace of the
   definitions of a branch predicate, the predicate values a region requires,
   the reachability check built from the two, and its caches. *)
From stdpp Require Import base list gmap numbers.

(* What defines an output, as RegionPredicateTrace::Compute distinguishes it
   (RegionPredicateTrace.cpp:144-252).  Inputs, outputs and regions are named
   by numbers.  Simplification: only what the trace looks at is kept; an
   output that belongs to a lambda, a delta, a phi or an import is OOther. *)
Inductive odef :=
| OConst (alt nalts : nat)            (* ControlConstantOperation *)
| OSimple                             (* any other simple node *)
| OGammaOut (results : list nat)      (* exit variable of a gamma: its branchResult inputs *)
| OThetaOut (inp post pre : nat)      (* loop variable seen as an output of the theta *)
| OEntry (inp : nat)                  (* branch argument of an entry variable *)
| OMatchArg                           (* branch argument of the match content variable *)
| OThetaPre (inp post : nat)          (* loop variable seen as an argument of the theta region *)
| OOther.

(* The owner of a region: Region::node() and Region::index()
   (RegionPredicateTrace.cpp:282-312). *)
Inductive rparent :=
| RTop
| RGamma (outer pred index : nat)
| ROther (outer : nat).

(* origin: Input::origin; iregion: Input::region; istruct: whether
   TryGetRegionParentNode<StructuralNode>(input) succeeds, i.e. the input is a
   result of the region of a structural node; ity: the number of alternatives
   when Input::Type is a ControlType. *)
Record graph := Graph {
  origin : nat -> nat;
  odefn : nat -> odef;
  iregion : nat -> nat;
  istruct : nat -> bool;
  ity : nat -> option nat;
  rpar : nat -> rparent
}.

(* PredicateValueRange (RegionPredicateTrace.hpp:23-83): a vector of bool. *)
Notation range := (list bool).

(* CreateEmpty, CreateUnknown, CreateSingleValue (RegionPredicateTrace.hpp:29-53). *)
Definition create_empty (n : nat) : range := replicate n false.
Definition create_unknown (n : nat) : range := replicate n true.
Definition create_single (alt nalts : nat) : range := <[alt := true]> (replicate nalts false).

(* PredicateValueRange::UpdateUnion (RegionPredicateTrace.hpp:58-66): updates
   the common prefix and keeps the length of the updated range. *)
Fixpoint update_union (a b : range) : range :=
  match a, b with
  | x :: a', y :: b' => (x || y) :: update_union a' b'
  | _, _ => a
  end.

(* PredicateValueRange::AllowsValue (RegionPredicateTrace.hpp:71-75). *)
Definition allows (r : range) (v : nat) : bool := default false (r !! v).

(* The state of one trace: RegionPredRange, visitedInputs, and the keys of
   observers_ (RegionPredicateTrace.hpp:192-235). *)
Record tstate := TState {
  ranges : gmap nat (list bool);
  visited : gmap nat (list bool);
  observed : gset nat
}.

(* The loop over exitVar.branchResult (RegionPredicateTrace.cpp:176-190). *)
Fixpoint union_results (rec : nat -> tstate -> option (range * tstate))
    (rs : list nat) (acc : range) (st : tstate) : option (range * tstate) :=
  match rs with
  | [] => Some (acc, st)
  | res :: rs' =>
    match rec res st with
    | Some (r, st') => union_results rec rs' (update_union acc r) st'
    | None => None
    end
  end.

(* RegionPredicateTrace::Compute (RegionPredicateTrace.cpp:144-252); rec is
   the recursive call to ComputeAndRecord. *)
Definition compute (g : graph) (ty : nat) (rec : nat -> tstate -> option (range * tstate))
    (i : nat) (st : tstate) : option (range * tstate) :=
  match odefn g (origin g i) with
  | OConst alt nalts => Some (create_single alt nalts, st)
  | OSimple => Some (create_unknown ty, st)
  | OGammaOut rs => union_results rec rs (create_empty ty) st
  | OThetaOut inp post pre =>
    if origin g post =? pre then rec inp st else rec post st
  | OEntry inp => rec inp st
  | OMatchArg => Some (create_unknown ty, st)
  | OThetaPre inp post =>
    if origin g post =? origin g i then rec inp st else Some (create_unknown ty, st)
  | OOther => Some (create_unknown ty, st)
  end.

(* The part of ComputeAndRecord after the call to Compute
   (RegionPredicateTrace.cpp:119-136): the region of a result input gets the
   range, and is observed when it had none. *)
Definition note (g : graph) (i : nat) (r : range) (st : tstate) : tstate :=
  if istruct g i then
    match ranges st !! iregion g i with
    | Some r0 =>
      TState (<[iregion g i := update_union r0 r]> (ranges st))
             (<[i := r]> (visited st)) (observed st)
    | None =>
      TState (<[iregion g i := r]> (ranges st))
             (<[i := r]> (visited st)) ({[iregion g i]} ∪ observed st)
    end
  else TState (ranges st) (<[i := r]> (visited st)) (observed st).

(* RegionPredicateTrace::ComputeAndRecord (RegionPredicateTrace.cpp:107-139).
   Simplification: the recursion depth is bounded by fuel; None is running
   out of it.  The recursion of the code follows the def-use edges of an
   acyclic graph, and [trace_terminates] shows that some fuel suffices. *)
Fixpoint compute_and_record (fuel : nat) (g : graph) (ty : nat) (i : nat) (st : tstate)
    : option (range * tstate) :=
  match fuel with
  | 0 => None
  | S f =>
    match visited st !! i with
    | Some r => Some (r, st)
    | None =>
      match compute g ty (compute_and_record f g ty) i st with
      | Some (r, st') => Some (r, note g i r st')
      | None => None
      end
    end
  end.

(* The caches of a RegionPredicateTrace object (RegionPredicateTrace.hpp:227-235). *)
Record tracer := Tracer {
  predAssignment : gmap nat (gmap nat (list bool));
  predSat : gmap nat (list (nat * nat));
  observers : gset nat
}.

(* RegionPredicateTrace::RegionPredicateTrace (RegionPredicateTrace.cpp:76-77). *)
Definition fresh : tracer := Tracer ∅ ∅ ∅.

(* RegionPredicateTrace::Clear (RegionPredicateTrace.cpp:79-94). *)
Definition clear (t : tracer) : tracer := Tracer ∅ ∅ (observers t).

(* GetRegionPredicateAssignConstraints (RegionPredicateTrace.cpp:254-280). *)
Definition get_assign (fuel : nat) (g : graph) (region use : nat) (t : tracer)
    : option (range * tracer) :=
  match ity g use with
  | None => Some (create_empty 0, t)
  | Some ty =>
    let look (m : gmap nat (list bool)) := default (create_unknown ty) (m !! region) in
    match predAssignment t !! use with
    | Some m => Some (look m, t)
    | None =>
      match compute_and_record fuel g ty use (TState ∅ ∅ (observers t)) with
      | Some (_, st) =>
        Some (look (ranges st),
              Tracer (<[use := ranges st]> (predAssignment t)) (predSat t) (observed st))
      | None => None
      end
    end
  end.

(* GetRegionSatRequired (RegionPredicateTrace.cpp:282-312). *)
Fixpoint get_sat (fuel : nat) (g : graph) (region : nat) (t : tracer)
    : option (list (nat * nat) * tracer) :=
  match fuel with
  | 0 => None
  | S f =>
    let t := Tracer (predAssignment t) (predSat t) ({[region]} ∪ observers t) in
    match predSat t !! region with
    | Some req => Some (req, t)
    | None =>
      let ins (req : list (nat * nat)) (t : tracer) :=
        Some (req, Tracer (predAssignment t) (<[region := req]> (predSat t)) (observers t)) in
      match rpar g region with
      | RTop => ins [] t
      | ROther outer =>
        match get_sat f g outer t with
        | Some (req, t') => ins req t'
        | None => None
        end
      | RGamma outer pred index =>
        match get_sat f g outer t with
        | Some (req, t') => ins (req ++ [(pred, index)]) t'
        | None => None
        end
      end
    end
  end.

(* The loop of CheckPredicatesSatisfiable (RegionPredicateTrace.cpp:317-329). *)
Fixpoint check_all (fuel : nat) (g : graph) (org : nat) (req : list (nat * nat)) (t : tracer)
    : option (bool * tracer) :=
  match req with
  | [] => Some (true, t)
  | (pred, value) :: req' =>
    match get_assign fuel g org pred t with
    | Some (assigned, t') =>
      if allows assigned value then check_all fuel g org req' t' else Some (false, t')
    | None => None
    end
  end.

(* CheckPredicatesSatisfiable (RegionPredicateTrace.cpp:314-332). *)
Definition check (fuel : nat) (g : graph) (org target : nat) (t : tracer)
    : option (bool * tracer) :=
  match get_sat fuel g target t with
  | Some (req, t') => check_all fuel g org req t'
  | None => None
  end.

(* Input::divert_to (jlm/rvsdg/node.cpp:63-80), as far as the trace sees it. *)
Definition divert (g : graph) (i o : nat) : graph :=
  Graph (fun j => if j =? i then o else origin g j)
        (odefn g) (iregion g) (istruct g) (ity g) (rpar g).

(* Observer::onInputChange (RegionPredicateTrace.cpp:52-64), called for the
   observers of the region of the diverted input. *)
Definition on_input_change (g : graph) (i : nat) (t : tracer) : tracer :=
  if decide (iregion g i ∈ observers t) then
    match ity g i with
    | Some _ => clear t
    | None => t
    end
  else t.
