(** Model of jlm/llvm/opt/alias-analyses/PointerObjectSet.{hpp,cpp}: the set of
    pointer objects, the constraints, the naive solver, NormalizeConstraints and
    HasIdenticalSolAs. (The worklist solver is in WModel.v.)

    Simplifications, everywhere:
    - vectors indexed by PointerObjectIndex are total functions on nat, the
      one-bit flags are finite sets of indices. That no index outside
      [0, NumPointerObjects()) is ever used is part of the invariant;
    - the RVSDG side (registers, lambda nodes, call nodes, RegisterMap_ and
      FunctionMap_) does not change while solving: it is the record [prog],
      in which [TryGetRegisterPointerObject] is already applied to every
      argument and result (None: no pointer object);
    - a loop over a util::HashSet iterates over a snapshot of the set, in any
      order: [ord k] is the order used by the k-th loop of the execution, every
      theorem quantifies over [ord]. (Whether the code changes the very set it
      iterates over is the subject of [iterated_set_unchanged] and
      [iterated_set_unchanged_refuted] in Properties.v.)
    - the statistics counters are not modelled. *)
From stdpp Require Import base list list_numbers fin_sets gmap.

(** PointerObjectSet.hpp:28-41 PointerObjectKind *)
Inductive kind := Register | AllocaMO | MallocMO | GlobalMO | FunctionMO | ImportMO.
Global Instance kind_eq_dec : EqDecision kind.
Proof. solve_decision. Defined.

Definition upd {A} (f : nat -> A) (i : nat) (x : A) : nat -> A := fun j => if decide (j = i) then x else f j.

(** The part of the RVSDG module the solver looks at.
    [functions]: the FunctionMemoryObjects in FunctionMap_;
    [fargs f], [fresults f]: the register pointer objects of the function
    arguments, and of the origins of the function results;
    [cargs c], [couts c]: the same for the arguments and outputs of call node c. *)
Record prog := mkprog {
  functions : list nat;
  fargs : nat -> list (option nat); fresults : nat -> list (option nat);
  cargs : nat -> list (option nat); couts : nat -> list (option nat) }.

(** PointerObjectSet.hpp:50-177 PointerObjectSet.  [tick] counts the loops over
    hash sets executed so far (ghost: it only selects the iteration order). *)
Record pos := mkpos {
  npo : nat;                    (* PointerObjects_.size() *)
  kindof : nat -> kind;
  canpoint : nat -> bool;
  par : nat -> nat;             (* PointerObjectParents_ *)
  rank : nat -> nat;            (* PointerObjectRank_ *)
  fesc : gset nat;              (* HasEscaped *)
  fpe : gset nat;               (* PointeesEscaping *)
  fext : gset nat;              (* PointsToExternal *)
  fsas : gset nat;              (* StoredAsScalar *)
  flas : gset nat;              (* LoadedAsScalar *)
  pts : nat -> gset nat;        (* PointsToSets_ *)
  tick : nat }.

Definition set_esc v s := mkpos (npo s) (kindof s) (canpoint s) (par s) (rank s) v (fpe s) (fext s) (fsas s) (flas s) (pts s) (tick s).
Definition set_pe v s := mkpos (npo s) (kindof s) (canpoint s) (par s) (rank s) (fesc s) v (fext s) (fsas s) (flas s) (pts s) (tick s).
Definition set_ext v s := mkpos (npo s) (kindof s) (canpoint s) (par s) (rank s) (fesc s) (fpe s) v (fsas s) (flas s) (pts s) (tick s).
Definition set_sas v s := mkpos (npo s) (kindof s) (canpoint s) (par s) (rank s) (fesc s) (fpe s) (fext s) v (flas s) (pts s) (tick s).
Definition set_las v s := mkpos (npo s) (kindof s) (canpoint s) (par s) (rank s) (fesc s) (fpe s) (fext s) (fsas s) v (pts s) (tick s).
Definition set_pts v s := mkpos (npo s) (kindof s) (canpoint s) (par s) (rank s) (fesc s) (fpe s) (fext s) (fsas s) (flas s) v (tick s).
Definition set_uf p r s := mkpos (npo s) (kindof s) (canpoint s) p r (fesc s) (fpe s) (fext s) (fsas s) (flas s) (pts s) (tick s).
Definition bump s := mkpos (npo s) (kindof s) (canpoint s) (par s) (rank s) (fesc s) (fpe s) (fext s) (fsas s) (flas s) (pts s) (S (tick s)).

(** the empty PointerObjectSet *)
Definition empty_pos : pos := mkpos 0 (fun _ => Register) (fun _ => true) (fun i => i) (fun _ => 0) ∅ ∅ ∅ ∅ ∅ (fun _ => ∅) 0.

(** PointerObjectSet.cpp:333-350 GetUnificationRoot: the index reached by
    following parents. The code also halves the path it follows: that this
    changes no root is proved for [find_halving] below. The fuel is enough:
    the rank strictly increases along parents (proved). *)
Definition uf_fuel (s : pos) : nat := S (list_max (map (rank s) (seq 0 (npo s)))).
Definition root (s : pos) (i : nat) : nat := Nat.iter (uf_fuel s) (par s) i.
(** the loop of GetUnificationRoot as written, with path halving *)
Fixpoint find_halving (fuel : nat) (p : nat -> nat) (index : nat) : option (nat * (nat -> nat)) :=
  match fuel with
  | 0 => None
  | S fuel => if decide (p index = index) then Some (index, p)
              else let grandparent := p (p index) in find_halving fuel (upd p index grandparent) grandparent
  end.
(** PointerObjectSet.cpp:352-356 *)
Definition is_root (s : pos) (i : nat) : bool := bool_decide (root s i = i).

(** the operations that report whether they changed anything *)
Definition op := pos -> pos * bool.
Definition nop : op := fun s => (s, false).
Definition seqop (m1 m2 : op) : op := fun s =>
  let '(s1, b1) := m1 s in let '(s2, b2) := m2 s1 in (s2, b1 || b2).
Fixpoint forop {A} (l : list A) (f : A -> op) : op :=
  match l with [] => nop | x :: l => seqop (f x) (forop l f) end.
Definition ifop (c : pos -> bool) (m : op) : op := fun s => if c s then m s else (s, false).
Notation "m1 ;+ m2" := (seqop m1 m2) (at level 60, right associativity).

(** 238-243, 262-266, 278-282, 311-315, 327-331: the flag queries; 402-406 GetPointsToSet *)
Definition has_escaped (s : pos) (i : nat) : bool := bool_decide (i ∈ fesc s).
Definition has_pe (s : pos) (i : nat) : bool := bool_decide (root s i ∈ fpe s).
Definition is_ext (s : pos) (i : nat) : bool := bool_decide (root s i ∈ fext s).
Definition is_sas (s : pos) (i : nat) : bool := bool_decide (root s i ∈ fsas s).
Definition is_las (s : pos) (i : nat) : bool := bool_decide (root s i ∈ flas s).
Definition pset (s : pos) (i : nat) : gset nat := pts s (root s i).
(** 294-299 and PointerObjectSet.hpp:114-124 CanTrackPointeesImplicitly *)
Definition implicit (s : pos) (i : nat) : bool := is_ext s i && has_pe s i.

(** 268-276 MarkAsPointeesEscaping *)
Definition mark_pe (i : nat) : op := fun s =>
  let r := root s i in if decide (r ∈ fpe s) then (s, false) else (set_pe ({[r]} ∪ fpe s) s, true).
(** 284-292 MarkAsPointingToExternal *)
Definition mark_ext (i : nat) : op := fun s =>
  let r := root s i in if decide (r ∈ fext s) then (s, false) else (set_ext ({[r]} ∪ fext s) s, true).
(** 301-309 MarkAsStoringAsScalar, 317-325 MarkAsLoadingAsScalar *)
Definition mark_sas (i : nat) : op := fun s =>
  let r := root s i in if decide (r ∈ fsas s) then (s, false) else (set_sas ({[r]} ∪ fsas s) s, true).
Definition mark_las (i : nat) : op := fun s =>
  let r := root s i in if decide (r ∈ flas s) then (s, false) else (set_las ({[r]} ∪ flas s) s, true).
(** 245-260 MarkAsEscaped *)
Definition mark_escaped (i : nat) : op := fun s =>
  if decide (i ∈ fesc s) then (s, false)
  else let s := set_esc ({[i]} ∪ fesc s) s in ((mark_ext i (mark_pe i s).1).1, true).
(** 408-421 AddToPointsToSet *)
Definition add_pointee (p y : nat) : op := fun s =>
  let r := root s p in
  if decide (y ∈ pts s r) then (s, false) else (set_pts (upd (pts s) r ({[y]} ∪ pts s r)) s, true).

(** 27-40 AddPointerObject, with the constructor PointerObjectSet.hpp:85-112 *)
Definition add_object (k : kind) (can : bool) (s : pos) : pos :=
  let i := npo s in
  let flag (f : gset nat) := if can then f else {[i]} ∪ f in
  mkpos (S i) (upd (kindof s) i k) (upd (canpoint s) i can) (upd (par s) i i) (upd (rank s) i 0)
        (fesc s) (flag (fpe s)) (flag (fext s)) (fsas s) (flas s) (upd (pts s) i ∅) (tick s).
(** 168-179 CreateImportMemoryObject *)
Definition add_import (can : bool) (s : pos) : pos := (mark_escaped (npo s) (add_object ImportMO can s)).1.

(** 358-400 UnifyPointerObjects; returns the new root *)
Definition unify (a b : nat) (s : pos) : pos * nat :=
  let r1 := root s a in let r2 := root s b in
  if decide (r1 = r2) then (s, r1) else
  let '(new, old) := if decide (rank s r1 < rank s r2) then (r2, r1) else (r1, r2) in
  let rk := if decide (rank s r1 = rank s r2) then upd (rank s) new (S (rank s new)) else rank s in
  let move (f : gset nat) := if decide (old ∈ f) then {[new]} ∪ f else f in
  (mkpos (npo s) (kindof s) (canpoint s) (upd (par s) old new) rk
         (fesc s) (move (fpe s)) (move (fext s)) (move (fsas s)) (move (flas s))
         (upd (upd (pts s) new (pts s new ∪ pts s old)) old ∅) (tick s), new).
(** 482-488 RemoveAllPointees *)
Definition remove_all_pointees (i : nat) (s : pos) : pos := set_pts (upd (pts s) (root s i) ∅) s.

(** 490-506 IsPointingTo *)
Definition is_pointing_to (s : pos) (x y : nat) : bool :=
  (is_ext s x && has_escaped s y) || bool_decide (y ∈ pset s x).
(** 514-544 HasIdenticalSolAs *)
Definition identical_sol (s t : pos) : bool :=
  (npo s =? npo t) &&
  forallb (fun i =>
    eqb (has_escaped s i) (has_escaped t i) && eqb (is_ext s i) (is_ext t i) &&
    forallb (fun y => is_pointing_to t i y) (elements (pset s i)) &&
    forallb (fun y => is_pointing_to s i y) (elements (pset t i)))
  (seq 0 (npo s)).

(** PointerObjectSet.hpp:592-748: the constraints *)
Inductive cstr :=
| CSuper (superset subset : nat)
| CStore (pointer value : nat)
| CLoad (value pointer : nat)
| CCall (pointer : nat) (callnode : nat).
Global Instance cstr_eq_dec : EqDecision cstr.
Proof. solve_decision. Defined.

Section Solver.
  Context (ord : forall A : Type, nat -> list A -> list A) (G : prog).

  (** for (x : S.Items()) f(x) *)
  Definition forset (S : pos -> gset nat) (f : nat -> op) : op := fun s =>
    forop (ord nat (tick s) (elements (S s))) f (bump s).
  (** for each argument or output that has a pointer object *)
  Definition forsome (l : list (option nat)) (f : nat -> op) : op :=
    forop l (fun o => match o with Some i => f i | None => nop end).
  (** pairs of arguments and parameters, as many as both sides have *)
  Definition forpairs (l1 l2 : list (option nat)) (f : nat -> nat -> op) : op :=
    forop (zip l1 l2) (fun p => match p with (Some i, Some j) => f i j | _ => nop end).

  (** 423-457 PropagateNewPointees and 459-468 MakePointsToSetSuperset *)
  Definition make_superset (superset subset : nat) : op := fun s =>
    let rsup := root s superset in let rsub := root s subset in
    if decide (rsup = rsub) then (s, false)
    else (forset (fun s => pts s rsub) (add_pointee rsup) ;+
          ifop (fun s => is_ext s rsub) (mark_ext rsup)) s.

  (** 604-631 HandleCallingExternalFunction; 642-660 HandleCallingImportedFunction is the same *)
  Definition calling_external (c : nat) : op := forsome (cargs G c) mark_pe ;+ forsome (couts G c) mark_ext.
  (** 666-717 HandleLambdaCallParameters, HandleLambdaCallReturnValues; 731-750 HandleCallingLambdaFunction.
      makeSuperset(parameter, argument), makeSuperset(output, result) *)
  Definition calling_lambda (c f : nat) : op :=
    forpairs (cargs G c) (fargs G f) (fun i j => make_superset j i) ;+
    forpairs (couts G c) (fresults G f) make_superset.

  (** 558-563, 565-579, 581-595, 752-793: ApplyDirectly of the four constraints *)
  Definition apply (c : cstr) : op :=
    match c with
    | CSuper superset subset => make_superset superset subset
    | CStore p v =>
      forset (fun s => pset s p) (fun x => make_superset x v) ;+ ifop (fun s => is_ext s p) (mark_pe v)
    | CLoad v p =>
      forset (fun s => pset s p) (fun x => make_superset v x) ;+ ifop (fun s => is_ext s p) (mark_ext v)
    | CCall p c =>
      forset (fun s => pset s p) (fun f s =>
        match kindof s f with
        | ImportMO => calling_external c s
        | FunctionMO => calling_lambda c f s
        | _ => (s, false)
        end) ;+
      ifop (fun s => is_ext s p) (calling_external c)
    end.

  (** 800-820: scalar stores and loads *)
  Definition scalar_flags : op := fun s =>
    forop (seq 0 (npo s)) (fun idx =>
      ifop (fun s => is_root s idx)
        (ifop (fun s => is_sas s idx) (forset (fun s => pset s idx) mark_ext) ;+
         ifop (fun s => is_las s idx) (forset (fun s => pset s idx) mark_pe))) s.

  (** 836-850: the loop over the pointees of one pointee escaper; returns the
      roots to push on the queue *)
  Fixpoint escape_pointees (l : list nat) (s : pos) : pos * bool * list nat :=
    match l with
    | [] => (s, false, [])
    | y :: l =>
      let r := root s y in
      let prev := has_pe s r in
      let '(s1, b1) := mark_escaped y s in
      let '(s2, b2, q) := escape_pointees l s1 in
      (s2, b1 || b2, if prev then q else r :: q)
    end.
  (** 830-851: while (!pointeeEscapers.empty()); None: out of fuel *)
  Fixpoint escape_loop (fuel : nat) (queue : list nat) (s : pos) : option (pos * bool) :=
    match fuel, queue with
    | _, [] => Some (s, false)
    | 0, _ => None
    | S fuel, x :: queue =>
      let l := ord nat (tick s) (elements (pset s x)) in
      let '(s1, b1, q) := escape_pointees l (bump s) in
      '(s2, b2) ← escape_loop fuel (queue ++ q) s1;
      Some (s2, b1 || b2)
    end.
  Definition escape_queue (s : pos) : list nat :=
    filter (fun i => is_root s i && has_pe s i) (seq 0 (npo s)).
  (** 795-854 PropagateEscapedFlagsDirectly *)
  Definition escape_flags (s : pos) : option (pos * bool) :=
    let '(s1, b1) := scalar_flags s in
    '(s2, b2) ← escape_loop (2 * npo s) (escape_queue s1) s1;
    Some (s2, b1 || b2).

  (** 867-909 HandleEscapedFunction *)
  Definition escaped_function (f : nat) : op :=
    forsome (fargs G f) (fun i => ifop (fun s => negb (is_ext s i)) (mark_ext i)) ;+
    forsome (fresults G f) (fun i => ifop (fun s => negb (has_pe s i)) (mark_pe i)).
  (** 912-934 PropagateEscapedFunctionsDirectly *)
  Definition escaped_functions : op :=
    forop (functions G) (fun f => ifop (fun s => has_escaped s f) (escaped_function f)).

  (** 2325-2341: one iteration of the while loop of SolveNaively *)
  Definition naive_round (cs : list cstr) (s : pos) : option (pos * bool) :=
    let '(s1, b1) := forop cs apply s in
    '(s2, b2) ← escape_flags s1;
    let '(s3, b3) := escaped_functions s2 in
    Some (s3, b1 || b2 || b3).
  (** 2318-2345 SolveNaively; None: not finished after [fuel] iterations. Returns numIterations too. *)
  Fixpoint solve_naively (fuel : nat) (cs : list cstr) (s : pos) : option (pos * nat) :=
    match fuel with
    | 0 => None
    | S fuel =>
      '(s1, modified) ← naive_round cs s;
      if (modified : bool) then '(s2, k) ← solve_naively fuel cs s1; Some (s2, S k) else Some (s1, 1)
    end.
End Solver.

(** 1487-1545 NormalizeConstraints: the constraints on unification roots, without
    superset constraints between equal roots and without duplicates, in order.
    (The four hash sets of already added constraints are the list [acc].) *)
Definition normalize_one (s : pos) (c : cstr) : option cstr :=
  match c with
  | CSuper a b => if decide (root s a = root s b) then None else Some (CSuper (root s a) (root s b))
  | CStore p v => Some (CStore (root s p) (root s v))
  | CLoad v p => Some (CLoad (root s v) (root s p))
  | CCall p c => Some (CCall (root s p) c)
  end.
Fixpoint normalize_go (s : pos) (acc cs : list cstr) : list cstr :=
  match cs with
  | [] => acc
  | c :: cs => match normalize_one s c with
               | Some c' => if decide (c' ∈ acc) then normalize_go s acc cs else normalize_go s (acc ++ [c']) cs
               | None => normalize_go s acc cs
               end
  end.
Definition normalize (s : pos) (cs : list cstr) : list cstr * nat :=
  let cs' := normalize_go s [] cs in (cs', length cs - length cs').
