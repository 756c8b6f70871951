(** Alias queries: jlm/llvm/opt/alias-analyses/LocalAliasAnalysis.cpp, the tracing of pointers it uses (jlm/llvm/ir/Trace.cpp:133-335),
    and jlm/llvm/opt/alias-analyses/AliasAnalysis.cpp, PointsToGraphAliasAnalysis.cpp *)
From stdpp Require Import base list fin_maps fin_sets gmap.
From Coq Require Import ZArith.
Local Open Scope Z_scope.

Notation oid := nat (only parsing).
(** the result of running C++ code: a value; a failed JLM_ASSERT; [Fuel]: the fuel of the model is used up (Proofs show that this does not happen) *)
Inductive outcome (A : Type) := Done (a : A) | Failed | Fuel.
Global Arguments Done {A} a.
Global Arguments Failed {A}.
Global Arguments Fuel {A}.
Definition obind {A B} (x : outcome A) (f : A -> outcome B) : outcome B :=
  match x with Done a => f a | Failed => Failed | Fuel => Fuel end.
Notation "'let!' p := x 'in' k" := (obind x (fun p => k)) (at level 200, p pattern, x at level 100, k at level 200).
(** AliasAnalysis.hpp:33-43 *)
Inductive response := NoAlias | MayAlias | MustAlias.
Global Instance response_eq_dec : EqDecision response.
Proof. solve_decision. Defined.
(** size_t arithmetic *)
Definition u64 (z : Z) : Z := z mod 2 ^ 64.

(** What defines an output of pointer type, as far as the analysis looks at it: the owner node and its operation, the operands by their origins.
    [Gep base off]: GetElementPtr, with off the offset in bytes if all indices are constants (GetElementPtr.cpp:50-107, modelled in Gep.v);
    [ThetaOut pre post], [ThetaPre input post]: output and argument of a loop variable, post is the origin of its result;
    [GammaArg x]: branch argument of an entry variable with origin x; [Barrier]: IOBarrier; [Through x]: context variable of a lambda or phi, or a phi output, with the value of x;
    [Param]: argument of the lambda; [Other]: every other operation or argument: loads, calls, casts, null pointers, recursion variables of phis... *)
Inductive kind :=
  | Import (size : Z) | Delta (size : Z) | Lambda | Alloca (count : option Z) (elem : Z) | Malloc (size : option Z)
  | Gep (base : oid) (off : option Z) | Select (a b : oid) | Undef
  | GammaOut (results : list oid) | ThetaOut (pre post : oid) | ThetaPre (input post : oid)
  | GammaArg (x : oid) | Barrier (x : oid) | Through (x : oid) | Param | Other.
(** an input that uses an output, by what its owner is *)
Inductive use :=
  | UGammaIn (args : list oid) | UGammaRes (out : oid) | UThetaIn (pre : oid) | UThetaRes (pre out : oid)
  | UBarrier (out : oid) | UGep (out : oid) | USelect (out : oid) | ULoad | UStoreAddress | UStoreValue | UOther.
(** [norm]: llvm::traceOutput without caching (llvm/ir/Trace.cpp:62-68); it is modelled in Verif.Trace, here it is a function and the Spec says what is
    used of it. [rank]: outputs can be numbered such that a GEP comes after its base address. [outs]: all outputs *)
Record graph := Graph { kind_of : oid -> kind; uses : oid -> list use; norm : oid -> oid; rank : oid -> nat; outs : list oid }.

(** Trace.hpp:121-135 TraceCollection: AllTracedOutputs, TopOrigins *)
Notation origins := (gmap nat (option Z)) (only parsing).
Notation collection := (gmap nat (option Z) * gmap nat (option Z))%type (only parsing).

Section Analysis.
  Context (G : graph).
  (** Trace.cpp:149-179 TracePointerOriginPrecise, with TracedPointerOrigin::getOffsetInBytes (133-146) added up on the way; int64_t overflow of the sum is not modelled *)
  Fixpoint trace_precise_fuel (fuel : nat) (base : oid) (off : Z) : outcome (oid * Z) :=
    match fuel with
    | O => Fuel
    | S fuel =>
        let base := norm G base in
        match kind_of G base with
        | Gep b (Some d) => trace_precise_fuel fuel b (off + d)
        | _ => Done (base, off)
        end
    end.
  Definition trace_precise (p : oid) : outcome (oid * Z) := trace_precise_fuel (S (rank G (norm G p))) p 0.

  Section All.
    Context (rec : oid -> option Z -> collection -> outcome (bool * collection)).
    (** the && and the loop over the branch results (Trace.cpp:238-247, 261-274, 302-311): each origin in turn, with the same offset *)
    Fixpoint trace_each (l : list oid) (off : option Z) (tc : collection) : outcome (bool * collection) :=
      match l with
      | [] => Done (true, tc)
      | x :: l => let! (r, tc) := rec x off tc in if r then trace_each l off tc else Done (false, tc)
      end.
    (** Trace.cpp:213-316: what is done with a base pointer (normalized) that has not been traced with this offset *)
    Definition trace_from (b : oid) (off : option Z) (tc : collection) : outcome (bool * collection) :=
      let tc := (<[b := off]> tc.1, tc.2) in
      match kind_of G b with
      | Gep base c => rec base (match off, c with Some z, Some d => Some (z + d) | _, _ => None end) tc
      | Select x y => trace_each [x; y] off tc
      | Undef => Done (true, tc)
      | GammaOut rs => trace_each rs off tc
      | GammaArg _ => Failed (* Trace.cpp:277 *)
      | ThetaOut pre post => if decide (post = pre) then Failed else rec post off tc
      | ThetaPre input post => if decide (post = b) then Failed else trace_each [post; input] off tc
      | _ => Done (true, (tc.1, <[b := off]> tc.2))
      end.
  End All.
  (** Trace.cpp:181-318 traceAllPointerOriginsInternal *)
  Fixpoint trace_all_fuel (fuel max : nat) (b : oid) (off : option Z) (tc : collection) : outcome (bool * collection) :=
    match fuel with
    | O => Fuel
    | S fuel =>
        if decide (max <= size tc.1)%nat then Done (false, tc)
        else
          let b := norm G b in
          match tc.1 !! b with
          | Some None => Done (true, tc)
          | Some (Some prev) => if decide (off = Some prev) then Done (true, tc) else trace_from (trace_all_fuel fuel max) b None tc
          | None => trace_from (trace_all_fuel fuel max) b off tc
          end
    end.
  (** Trace.cpp:320-332 TraceAllPointerOrigins *)
  Definition trace_all (max : nat) (b : oid) (off : Z) : outcome (bool * collection) := trace_all_fuel (2 * max + 2) max b (Some off) (∅, ∅).

  (** LocalAliasAnalysis.cpp:188-213 QueryOffsets *)
  Definition query_offsets (o1 : option Z) (s1 : Z) (o2 : option Z) (s2 : Z) : response :=
    match o1, o2 with
    | Some z1, Some z2 =>
        let d := z2 - z1 in
        if decide (d = 0) then MustAlias
        else if decide (0 <= d /\ s1 <= d) then NoAlias
        else if decide (d <= 0 /\ s2 <= - d) then NoAlias
        else MayAlias
    | _, _ => MayAlias
    end.
  (** LocalAliasAnalysis.cpp:215-240 IsOriginalOrigin *)
  Definition is_original (o : oid) : bool :=
    match kind_of G o with Import _ | Delta _ | Lambda | Alloca _ _ | Malloc _ => true | _ => false end.
  (** LocalAliasAnalysis.cpp:242-251 HasOnlyOriginalTopOrigins *)
  Definition only_original (T : origins) : bool := forallb (fun d => is_original d.1) (map_to_list T).
  (** LocalAliasAnalysis.cpp:253-283 GetOriginalOriginSize *)
  Definition original_size (o : oid) : option Z :=
    match kind_of G o with
    | Delta n => Some n
    | Import n => if decide (n = 0) then None else Some n
    | Alloca (Some c) e => Some (u64 (c * e))
    | Malloc (Some n) => Some (u64 n)
    | _ => None
    end.
  (** LocalAliasAnalysis.cpp:285-302 GetRemainingSize *)
  Definition remaining_size (o : oid) (off : option Z) : option Z :=
    match original_size o with
    | None => None
    | Some total => match off with None => Some total | Some z => if decide (0 < z /\ total < z) then Some 0 else Some (u64 (total - z)) end
    end.
  (** LocalAliasAnalysis.cpp:304-326 RemoveTopOriginsWithRemainingSizeBelow *)
  Definition remove_small_remaining (T : origins) (s : Z) : origins :=
    map_imap (fun o off => match remaining_size o off with
                           | Some n => if decide (n < s) then None else if decide (n = s /\ off = None) then Some (Some 0) else Some off
                           | None => Some off
                           end) T.
  (** LocalAliasAnalysis.cpp:328-354 GetMinimumOffsetFromStart: the loop over the top origins; [m]: minimumOffset *)
  Fixpoint min_offset (l : list (oid * option Z)) (m : option Z) : Z :=
    match l with
    | [] => match m with Some z => z | None => 0 end
    | (_, None) :: _ => 0
    | (_, Some z) :: l => if decide (z < 0) then 0 else min_offset l (Some (match m with Some y => Z.min y z | None => z end))
    end.
  Definition minimum_offset (T : origins) : Z := min_offset (map_to_list T) None.
  (** LocalAliasAnalysis.cpp:356-368 RemoveTopOriginsSmallerThanSize *)
  Definition remove_smaller (T : origins) (s : Z) : origins :=
    filter (fun d : nat * option Z => match original_size d.1 with Some n => bool_decide (n < s) | None => false end = false) T.
  (** LocalAliasAnalysis.cpp:370-389 RemoveTopOriginsWithinTheFirstNBytes; *offset + s is computed in size_t *)
  Definition remove_within (T : origins) (s N : Z) : origins :=
    filter (fun d : nat * option Z => is_original d.1 && match d.2 with Some z => bool_decide (u64 (z + s) <= N) | None => false end = false) T.
  (** LocalAliasAnalysis.cpp:391-410 DoTraceCollectionsOverlap *)
  Definition overlap (T1 : origins) (s1 : Z) (T2 : origins) (s2 : Z) : bool :=
    existsb (fun d => match T2 !! d.1 with None => false | Some off2 => bool_decide (query_offsets d.2 s1 off2 s2 <> NoAlias) end) (map_to_list T1).
  (** LocalAliasAnalysis.cpp:412-421 hasOnlyAllocaTopOrigins *)
  Definition is_alloca (o : oid) : bool := match kind_of G o with Alloca _ _ => true | _ => false end.
  Definition only_alloca (T : origins) : bool := forallb (fun d => is_alloca d.1) (map_to_list T).
  (** LocalAliasAnalysis.cpp:423-444 removeArgumentTopOrigins *)
  Definition is_param (o : oid) : bool := match kind_of G o with Param => true | _ => false end.
  Definition remove_arguments (T : origins) : origins := filter (fun d : nat * option Z => is_param d.1 = false) T.

  (** LocalAliasAnalysis.cpp:460-466 Enqueue *)
  Definition enqueue (qa : list oid * gset nat) (x : oid) : list oid * gset nat :=
    if decide (x ∈ qa.2) then qa else (qa.1 ++ [x], {[x]} ∪ qa.2).
  (** LocalAliasAnalysis.cpp:475-556: the outputs a user passes the pointer on to; None: a user that cannot be handled *)
  Definition user_targets (u : use) : option (list oid) :=
    match u with
    | UGammaIn args => Some args
    | UGammaRes o | UBarrier o | UGep o | USelect o | UThetaIn o => Some [o]
    | UThetaRes pre o => Some [pre; o]
    | ULoad | UStoreAddress => Some []
    | UStoreValue | UOther => None
    end.
  (** LocalAliasAnalysis.cpp:474-562: the loop over the users of one output *)
  Fixpoint visit_users (us : list use) (qa : list oid * gset nat) : option (list oid * gset nat) :=
    match us with
    | [] => Some qa
    | u :: us => match user_targets u with None => None | Some l => visit_users us (fold_left enqueue l qa) end
    end.
  (** LocalAliasAnalysis.cpp:468-568: the loop over the queue *)
  Fixpoint visit_queue (fuel : nat) (qa : list oid * gset nat) : outcome bool :=
    match fuel with
    | O => Fuel
    | S fuel =>
        match qa.1 with
        | [] => Done true
        | p :: q => match visit_users (uses G p) (q, qa.2) with None => Done false | Some qa' => visit_queue fuel qa' end
        end
    end.
  (** LocalAliasAnalysis.cpp:446-569 IsOriginalOriginFullyTraceable. The memo IsFullyTraceable_ is not modelled: the graph does not change between queries *)
  Definition fully_traceable (o : oid) : outcome bool :=
    if is_alloca o then visit_queue (S (length (outs G))) (enqueue ([], ∅) o) else Done false.
  (** LocalAliasAnalysis.cpp:571-581 HasOnlyFullyTraceableTopOrigins *)
  Fixpoint all_traceable (l : list (oid * option Z)) : outcome bool :=
    match l with
    | [] => Done true
    | (o, _) :: l => let! r := fully_traceable o in if r then all_traceable l else Done false
    end.
  Definition only_traceable (T : origins) : outcome bool := all_traceable (map_to_list T).

  (** LocalAliasAnalysis.cpp:134-186: from the two collections on, given the offsets found by the precise tracing *)
  Definition query_collections (T1 : origins) (off1 s1 : Z) (T2 : origins) (off2 s2 : Z) : outcome response :=
    let min1 := minimum_offset T1 in
    let min2 := minimum_offset T2 in
    let min1 := if decide (0 < off1) then Z.max min1 off1 else min1 in
    let min2 := if decide (0 < off2) then Z.max min2 off2 else min2 in
    let T2 := remove_smaller T2 (u64 (min1 + s1)) in
    let T1 := remove_smaller T1 (u64 (min2 + s2)) in
    let T1 := remove_within T1 s1 min2 in
    let T2 := remove_within T2 s2 min1 in
    if overlap T1 s1 T2 s2 then Done MayAlias
    else if only_original T1 && only_original T2 then Done NoAlias
    else
      let (T1, T2) := if only_alloca T1 then (T1, remove_arguments T2) else if only_alloca T2 then (remove_arguments T1, T2) else (T1, T2) in
      if decide (T1 = ∅ \/ T2 = ∅) then Done NoAlias
      else let! r := only_traceable T1 in
      if r then Done NoAlias
      else let! r := only_traceable T2 in
      if r then Done NoAlias else Done MayAlias.
  (** LocalAliasAnalysis.cpp:120-131: one top origin each, the same one *)
  Definition single_origin (T1 T2 : origins) : option (option Z * option Z) :=
    match map_to_list T1, map_to_list T2 with
    | [(b1, o1)], [(b2, o2)] => if decide (b1 = b2) then Some (o1, o2) else None
    | _, _ => None
    end.
  (** LocalAliasAnalysis.cpp:51-186 Query; [max]: maxTraceCollectionSize_ *)
  Definition local_query (max : nat) (p1 : oid) (s1 : Z) (p2 : oid) (s2 : Z) : outcome response :=
    let n1 := norm G p1 in
    let n2 := norm G p2 in
    if decide (n1 = n2) then Done MustAlias
    else
      let! (b1, off1) := trace_precise n1 in
      let! (b2, off2) := trace_precise n2 in
      if decide (b1 = b2) then Done (query_offsets (Some off1) s1 (Some off2) s2)
      else if decide (max <= 1)%nat then Done (if is_original b1 && is_original b2 then NoAlias else MayAlias)
      else
        let! (r1, c1) := trace_all max b1 off1 in
        if negb r1 then Done MayAlias
        else
          let! (r2, c2) := trace_all max b2 off2 in
          if negb r2 then Done MayAlias
          else
            let T1 := remove_small_remaining c1.2 s1 in
            let T2 := remove_small_remaining c2.2 s2 in
            match single_origin T1 T2 with
            | Some (o1, o2) => Done (query_offsets o1 s1 o2 s2)
            | None => query_collections T1 off1 s1 T2 off2 s2
            end.
End Analysis.
