(** Well-formed RVSDGs: what jlm/rvsdg establishes when nodes, arguments and results are created. *)
From stdpp Require Import base list list_numbers fin_sets gmap.
From Verif.Rvsdg Require Import Model Spec.

(** numbers of inputs, outputs, arguments and results (node constructors; simple-node.cpp:20-40, gamma.cpp, theta.cpp, lambda.cpp, Phi.cpp, delta.cpp:
    AddEntryVar, AddExitVar, AddLoopVar, AddContextVar, AddFixVar, finalize; Load.hpp MapMemoryStateOutputToInput asserts ninputs = noutputs).
    The body of a delta contains simple nodes other than loads only (DeadNodeElimination.cpp sweepDelta says so; it computes a constant). *)
Definition shape (k : kind) (ins outs : list oid) (subs : list region) : Prop :=
  match k with
  | Simple _ => subs = []
  | Load _ => subs = [] /\ length ins = length outs
  | Gamma => ins <> [] /\ Forall (fun r => length (rargs r) = length ins /\ length (rres r) = length outs) subs
  | Theta => exists r, subs = [r] /\ length (rargs r) = length ins /\ length ins = length outs /\ length (rres r) = S (length outs)
  | Lambda n => exists r, subs = [r] /\ length (rargs r) = n + length ins /\ length outs = 1
  | Phi => exists r, subs = [r] /\ length (rargs r) = length outs + length ins /\ length (rres r) = length outs
  | Delta => exists r, subs = [r] /\ length (rargs r) = length ins /\ length (rres r) = 1 /\ length outs = 1 /\
               Forall (fun n => exists op, nkind n = Simple op) (rnodes r)
  end.
(** edges go from an argument of the region or an output of an earlier node of the region *)
Definition wf_list (f : node -> Prop) : list oid -> list node -> Prop :=
  fix go av ns := match ns with
  | [] => True
  | n :: ns => Forall (fun x => x ∈ av) (nins n) /\ f n /\ go (av ++ nouts n) ns
  end.
Definition own (ns : list node) : list oid := mjoin (map nouts ns).
Fixpoint wf_node (n : node) : Prop :=
  let 'Node id k ins outs subs := n in
  shape k ins outs subs /\ fold_right and True (map wf_region subs)
with wf_region (r : region) : Prop :=
  let 'Region args res ns := r in
  wf_list wf_node args ns /\ Forall (fun x => x ∈ args ++ own ns) res.
(** node identities *)
Fixpoint node_ids (n : node) : list nat :=
  let 'Node id _ _ _ subs := n in id :: mjoin (map region_ids subs)
with region_ids (r : region) : list nat := let 'Region _ _ ns := r in mjoin (map node_ids ns).
(** every output is defined once, every node occurs once *)
Definition wf (t : region) : Prop := wf_region t /\ NoDup (defs t).*1 /\ NoDup (region_ids t).

(** the outputs an equation refers to *)
Definition refs (w : view) : list oid :=
  match w with
  | VSimple _ _ _ _ ins => ins
  | VGamma p brs => p :: mjoin (map (fun '(x, c, es) => x :: es.*2) brs)
  | VTheta pred post inp lvs => pred :: post :: inp :: lvs.*1.*2 ++ lvs.*2
  | VGammaArg e => [e]
  | VThetaArg out inp => [out; inp]
  | VLambda _ _ res | VDelta _ res => res
  | VCopy x => [x]
  | VFunArg | VImport _ => []
  end.
