(** Tracing an output to the output its value comes from.
    jlm/rvsdg/Trace.cpp, jlm/rvsdg/Trace.hpp, jlm/llvm/ir/Trace.cpp:28-65 *)
From stdpp Require Import base list list_numbers fin_sets gmap.
From Verif.Rvsdg Require Import Model.

(** the result of running C++ code: a value; a failed JLM_ASSERT; [Fuel]: still running when the fuel of the model is used up
    (Proofs show that this does not happen) *)
Inductive outcome (A : Type) := Done (a : A) | Failed | Fuel.
Global Arguments Done {A} a.
Global Arguments Failed {A}.
Global Arguments Fuel {A}.
Definition obind {A B} (x : outcome A) (f : A -> outcome B) : outcome B :=
  match x with Done a => f a | Failed => Failed | Fuel => Fuel end.
Notation "'let!' p := x 'in' k" := (obind x (fun p => k)) (at level 200, p pattern, x at level 100, k at level 200).

(** node.hpp, region.hpp: TryGetOwnerNode, TryGetOwnerRegion, TryGetRegionParentNode, Output::index.
    [OutputOf r n i]: output i of node n of region r. [ArgumentOf r n b s i]: argument i of region s, which is subregion b of node n of
    region r. [RootArgument]: an import of the module. *)
Inductive owner := OutputOf (r : region) (n : node) (i : nat) | ArgumentOf (r : region) (n : node) (b : nat) (s : region) (i : nat) | RootArgument.
Definition numbered {A} (l : list A) : list (nat * A) := imap pair l.
Fixpoint nowners (r : region) (n : node) : list (oid * owner) :=
  let 'Node _ _ _ outs subs := n in
  map (fun '(i, o) => (o, OutputOf r n i)) (numbered outs) ++
  mjoin (imap (fun b (f : region * list (oid * owner)) => map (fun '(i, o) => (o, ArgumentOf r n b f.1 i)) (numbered (rargs f.1)) ++ f.2) (map (fun s => (s, rowners s)) subs))
with rowners (r : region) : list (oid * owner) :=
  let 'Region _ _ ns := r in mjoin (map (nowners r) ns).
Definition owners (t : region) : list (oid * owner) := map (fun o => (o, RootArgument)) (rargs t) ++ rowners t.
Definition owner_of (t : region) (o : oid) : option owner := snd <$> (snd <$> list_find (fun d => d.1 = o) (owners t)).

(** a Region* argument: the node that contains the region and the number of the subregion; the root region is not used as one *)
Notation rid := (nat * nat)%type (only parsing).

(** Trace.hpp:198-212 traceThroughStrucutalNodes_, enterPhiNodes_, isInterprocedural_, enableCaching_;
    [llvm]: the object is a jlm::llvm::OutputTracer, [loaded]: its traceThroughLoadedStates_;
    [barrier op]: op is an IOBarrierOperation *)
Record config := Config { deep : bool; enter_phi : bool; interproc : bool; caching : bool; llvm : bool; loaded : bool; barrier : nat -> bool }.
(** Trace.hpp:212 traceCache_. The C++ cache holds the input at which tracing arrived and reads its origin when the entry is used; the graph
    does not change here, so that the model keeps the origin. *)
Notation cache := (gmap nat (option nat)) (only parsing).

Section Trace.
  Context (cfg : config) (t : region).
  (** Trace.cpp:257-281 insertInCache, lookupInCache *)
  Definition insert_in_cache (o : oid) (x : option oid) (c : cache) : outcome (option oid * cache) :=
    if caching cfg then match c !! o with Some _ => Failed | None => Done (x, <[o := x]> c) end else Done (x, c).
  Definition lookup_in_cache (o : oid) (c : cache) : option (option oid) := if caching cfg then c !! o else None.

  Section Rec.
    (** the recursive calls of trace: the region to stay in, the output *)
    Context (rec : option rid -> oid -> cache -> outcome (oid * cache)).
    (** gamma.cpp:352-359 mapBranchArgumentToInput, the origin of the input: the types of the argument and the input must be equal. The
        input of the match content argument 0 is the predicate, of a control type, which the type of the match content is not *)
    Definition map_branch_argument (n : node) (i : nat) : outcome oid :=
      match i with 0 => Failed | S _ => match nins n !! i with Some x => Done x | None => Failed end end.
    (** Trace.cpp:66-93: the loop over the branches from number b on; [common]: commonOrigin. The result is the origin or nullptr *)
    Fixpoint gamma_branches (n : node) (k b : nat) (subs : list region) (common : option oid) (c : cache) : outcome (option oid * cache) :=
      match subs with
      | [] => match common with Some x => Done (Some x, c) | None => Failed end
      | s :: subs =>
          match rres s !! k with
          | None => Failed
          | Some x =>
              let! (y, c) := if deep cfg then rec (Some (nid n, b)) x c else Done (x, c) in
              match owner_of t y with
              | Some (ArgumentOf _ n' _ _ i) =>
                  if decide (nid n' = nid n) then
                    let! z := map_branch_argument n i in
                    match common with
                    | None => gamma_branches n k (S b) subs (Some z) c
                    | Some z' => if decide (z' = z) then gamma_branches n k (S b) subs common c else Done (None, c)
                    end
                  else Done (None, c)
              | _ => Done (None, c)
              end
          end
      end.
    (** Trace.cpp:56-98 tryTraceThroughGamma. MapOutputExitVar: output k belongs to the results k of the branches *)
    Definition try_gamma (n : node) (k : nat) (o : oid) (c : cache) : outcome (option oid * cache) :=
      match lookup_in_cache o c with
      | Some x => Done (x, c)
      | None => let! (x, c) := gamma_branches n k 0 (nsubs n) None c in insert_in_cache o x c
      end.
    (** Trace.cpp:100-138 tryTraceThroughTheta. MapOutputLoopVar (theta.cpp:165-173): input k, argument k, result k + 1, output k *)
    Definition try_theta (n : node) (k : nat) (o : oid) (c : cache) : outcome (option oid * cache) :=
      match lookup_in_cache o c with
      | Some x => Done (x, c)
      | None =>
          match nsubs n !! 0 with
          | None => Failed
          | Some s =>
              match rres s !! S k, rargs s !! k, nins n !! k with
              | Some q, Some a, Some x =>
                  let! (y, c) := if deep cfg then rec (Some (nid n, 0)) q c else Done (q, c) in
                  if decide (y = a) then insert_in_cache o (Some x) c
                  else match owner_of t y with
                       | Some (ArgumentOf _ n' _ _ j) =>
                           if decide (nid n' = nid n) then
                             match rres s !! S j, nins n !! j with
                             | Some q', Some x' => insert_in_cache o (if decide (q' = y) then Some x' else None) c
                             | _, _ => Failed
                             end
                           else insert_in_cache o None c
                       | _ => insert_in_cache o None c
                       end
              | _, _, _ => Failed
              end
          end
      end.
    Definition or_else {A} (x : option A) (y : A) : A := match x with Some a => a | None => y end.
    (** Trace.cpp:140-255 traceStep *)
    Definition base_step (w : option rid) (o : oid) (c : cache) : outcome (oid * cache) :=
      match owner_of t o with
      | None => Failed
      | Some RootArgument => Done (o, c)
      | Some (OutputOf _ n k) =>
          match nkind n with
          | Gamma => let! (x, c) := try_gamma n k o c in Done (or_else x o, c)
          | Theta => let! (x, c) := try_theta n k o c in Done (or_else x o, c)
          | Phi =>
              if interproc cfg && enter_phi cfg then
                match nsubs n with
                | [s] => match rres s !! k with Some x => Done (x, c) | None => Failed end
                | _ => Failed
                end
              else Done (o, c)
          | _ => Done (o, c)
          end
      | Some (ArgumentOf _ n b s i) =>
          if decide (w = Some (nid n, b)) then Done (o, c)
          else match nkind n with
          | Gamma => let! x := map_branch_argument n i in Done (x, c)
          | Theta =>
              match nins n !! i, nouts n !! i with
              | Some x, Some out =>
                  let! (y, c) := try_theta n i out c in Done (if decide (y = Some x) then x else o, c)
              | _, _ => Failed
              end
          | Lambda m => (* lambda.cpp MapBinderContextVar *)
              if interproc cfg && bool_decide (m <= i) then match nins n !! (i - m) with Some x => Done (x, c) | None => Failed end else Done (o, c)
          | Delta => if interproc cfg then match nins n !! i with Some x => Done (x, c) | None => Failed end else Done (o, c)
          | Phi => (* Phi.cpp:116-147 MapArgument *)
              if interproc cfg && bool_decide (length (rres s) <= i) then match nins n !! (i - length (rres s)) with Some x => Done (x, c) | None => Failed end
              else Done (o, c)
          | _ => Done (o, c)
          end
      end.
    (** llvm/ir/Trace.cpp:32-60 traceStep *)
    Definition trace_step (w : option rid) (o : oid) (c : cache) : outcome (oid * cache) :=
      let! (x, c) := base_step w o c in
      if llvm cfg then
        match owner_of t x with
        | Some (OutputOf _ n k) =>
            match nkind n with
            | Simple op => if barrier cfg op then match nins n !! 0 with Some y => Done (y, c) | None => Failed end else Done (x, c)
            | Load _ => if loaded cfg && bool_decide (0 < k) then match nins n !! k with Some y => Done (y, c) | None => Failed end else Done (x, c)
            | _ => Done (x, c)
            end
        | _ => Done (x, c)
        end
      else Done (x, c).
  End Rec.
  (** Trace.cpp:27-42 trace *)
  Fixpoint trace_fuel (fuel : nat) (w : option rid) (o : oid) (c : cache) : outcome (oid * cache) :=
    match fuel with
    | 0 => Fuel
    | S fuel =>
        let! (x, c) := trace_step (trace_fuel fuel) w o c in
        if decide (x = o) then Done (o, c) else trace_fuel fuel w x c
    end.
  (** the fuel of the model; every output of the module has an owner *)
  Definition trace (w : option rid) (o : oid) (c : cache) : outcome (oid * cache) := trace_fuel (2 * length (owners t) + 1) w o c.
End Trace.
(** Trace.cpp:283-297, llvm/ir/Trace.cpp:62-68: the tracers made by traceOutputIntraProcedurally and the two traceOutput functions *)
Definition intra_procedural : config := Config true true false false false false (fun _ => false).
Definition rvsdg_default : config := Config true true true false false false (fun _ => false).
Definition llvm_default (barrier : nat -> bool) : config := Config true true true false true false barrier.
Definition trace_output (cfg : config) (t : region) (w : option rid) (o : oid) : outcome oid := let! (x, _) := trace cfg t w o ∅ in Done x.
