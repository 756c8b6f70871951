(** Alias queries that are answered from a points-to graph, and the combination of two analyses.
    jlm/llvm/opt/alias-analyses/PointsToGraphAliasAnalysis.cpp, AliasAnalysis.cpp, PointsToGraph.hpp:52-103,475-556 *)
From stdpp Require Import base list option.
From Coq Require Import ZArith.
From Verif.AliasQuery Require Import Model.
Local Open Scope Z_scope.

(** PointsToGraph.hpp:54-67 *)
Inductive nkind := KRegister | KAlloca | KDelta | KImport | KLambda | KMalloc | KExternal.
(** PointsToGraph.hpp:70-105: the nodes are numbers. [register_node]: registerMap_; [targets_external]: isTargetingAllExternallyAvailable;
    [available]: isExternallyAvailable; [targets]: getExplicitTargets, in the order in which the hash set is iterated; [nsize]: tryGetNodeSize *)
Record ptg := Ptg { register_node : oid -> option nat; node_kind : nat -> nkind; targets_external : nat -> bool; available : nat -> bool; targets : nat -> list nat; nsize : nat -> option Z }.
Section Ptg.
  Context (P : ptg).
  (** PointsToGraph.hpp:86-102: the size that is kept of an allocation *)
  Definition stored_size (s : option Z) : option Z := match s with Some n => if decide (n < 1023) then Some n else None | None => None end.
  (** PointsToGraph.hpp:550-556 *)
  Definition is_targeting (source target : nat) : bool := (targets_external P source && available P target) || bool_decide (target ∈ targets P source).
  (** targetSize.has_value() && *targetSize < size *)
  Definition too_small (target : nat) (size : Z) : bool := match nsize P target with Some n => bool_decide (n < size) | None => false end.
  (** PointsToGraphAliasAnalysis.cpp:96-120 TryGetSingleTarget *)
  Fixpoint single_loop (l : list nat) (size : Z) (single : option nat) : option nat :=
    match l with
    | [] => single
    | t :: l => if too_small t size then single_loop l size single else match single with Some _ => None | None => single_loop l size (Some t) end
    end.
  Definition single_target (n : nat) (size : Z) : option nat := if targets_external P n then None else single_loop (targets P n) size None.
  (** PointsToGraphAliasAnalysis.cpp:122-139 IsRepresentingSingleMemoryLocation; std::logic_error for the external node *)
  Definition single_location (n : nat) : outcome bool :=
    match node_kind P n with KAlloca | KMalloc | KRegister => Done false | KDelta | KLambda | KImport => Done true | KExternal => Failed end.
  (** PointsToGraphAliasAnalysis.cpp:54-65 *)
  Definition same_single (s1 : Z) (t1 t2 : option nat) : outcome bool :=
    match t1, t2 with
    | Some a, Some b => if decide (a = b) then let! r := single_location a in Done (r && bool_decide (nsize P a = Some s1)) else Done false
    | _, _ => Done false
    end.
  (** PointsToGraphAliasAnalysis.cpp:80-92: the loop over the explicit targets *)
  Fixpoint common_target (l : list nat) (other : nat) (needed : Z) : response :=
    match l with
    | [] => NoAlias
    | t :: l => if too_small t needed then common_target l other needed else if is_targeting other t then MayAlias else common_target l other needed
    end.
  (** PointsToGraphAliasAnalysis.cpp:24-94 Query *)
  Definition ptg_query (p1 : oid) (s1 : Z) (p2 : oid) (s2 : Z) : outcome response :=
    if decide (p1 = p2) then Done MustAlias
    else
      match register_node P p1, register_node P p2 with
      | Some n1, Some n2 =>
          let e1 := targets_external P n1 in
          let e2 := targets_external P n2 in
          if e1 && e2 then Done MayAlias
          else
            let! must := if decide (s1 = s2) then same_single s1 (single_target n1 s1) (single_target n2 s2) else Done false in
            if must then Done MustAlias
            else
              let needed := Z.max s1 s2 in
              let (only, other) := if e1 then (n2, n1) else (n1, n2) in
              Done (common_target (targets P only) other needed)
      | _, _ => Done MayAlias
      end.
End Ptg.
(** AliasAnalysis.cpp:30-43 AreAliasResponsesCompatible *)
Definition compatible (a b : response) : bool :=
  match a with NoAlias => bool_decide (b <> MustAlias) | MayAlias => true | MustAlias => bool_decide (b <> NoAlias) end.
(** AliasAnalysis.cpp:53-68 ChainedAliasAnalysis::Query, in a build with assertions *)
Definition chained (first second : oid -> Z -> oid -> Z -> outcome response) (p1 : oid) (s1 : Z) (p2 : oid) (s2 : Z) : outcome response :=
  let! a := first p1 s1 p2 s2 in
  if decide (a = MayAlias) then second p1 s1 p2 s2
  else let! b := second p1 s1 p2 s2 in if compatible a b then Done a else Failed.
(** the same without assertions *)
Definition chained_release (first second : oid -> Z -> oid -> Z -> outcome response) (p1 : oid) (s1 : Z) (p2 : oid) (s2 : Z) : outcome response :=
  let! a := first p1 s1 p2 s2 in if decide (a = MayAlias) then second p1 s1 p2 s2 else Done a.
