(** What dead node elimination has to keep. *)
From stdpp Require Import base list list_numbers fin_sets gmap.
From Verif.Rvsdg Require Import Model Spec.

(** the outputs whose values determine the value of an output. A non-volatile load does not change the
    memory states that pass through it, so its k-th memory state only needs the k-th memory state before it. *)
Definition uses (w : view) : list oid :=
  match w with
  | VSimple _ true _ (S k) ins => option_list (ins !! S k)
  | VSimple _ _ _ _ ins => ins
  | VGamma p brs => p :: map (fun '(x, _, _) => x) brs
  | VGammaArg e => [e]
  | VTheta pred post inp _ => [pred; post; inp]
  | VThetaArg out inp => [out; inp]
  | VLambda _ _ res | VDelta _ res => res
  | VCopy x => [x]
  | VFunArg | VImport _ => []
  end.
(** an output is needed if the results of the module depend on it *)
Inductive needed (t : region) : oid -> Prop :=
  | needed_result o : o ∈ rres t -> needed t o
  | needed_use o w d : needed t o -> (o, w) ∈ defs t -> d ∈ uses w -> needed t d.
(** all the nodes of the module, at any depth *)
Fixpoint nodes_in (n : node) : list node := let 'Node _ _ _ _ subs := n in n :: mjoin (map nodes_of subs)
with nodes_of (r : region) : list node := let 'Region _ _ ns := r in mjoin (map nodes_in ns).
(** a load passes memory states through *)
Definition loads_pass_states {V} (sem : nat -> list V -> option (list V)) (t : region) : Prop :=
  forall o id op k ins vs ws, (o, VSimple id true op (S k) ins) ∈ defs t -> sem op vs = Some ws -> ws !! S k = vs !! S k.
