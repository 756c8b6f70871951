(** RVSDG graphs as trees of regions.
    An output (jlm::rvsdg::Output: node output or region argument) is identified by a number, as the
    C++ code identifies it by its address. A region lists its nodes in some topological order; edges
    stay within one region, so the users of an output are found in the node list and the results of
    the region that owns it. *)
From stdpp Require Import base list list_numbers fin_sets gmap.

Notation oid := nat (only parsing).

(** jlm/rvsdg/simple-node.hpp, gamma.hpp, theta.hpp, lambda.hpp, Phi.hpp, delta.hpp: the node classes.
    [Simple op]: SimpleNode with the operation op. [Load op]: SimpleNode with a LoadNonVolatileOperation
    (input 0 the address, output 0 the value, input and output k > 0 the k-th memory state).
    [Lambda n]: LambdaNode with n function arguments. *)
Inductive kind := Simple (op : nat) | Load (op : nat) | Gamma | Theta | Lambda (n : nat) | Phi | Delta.
(** jlm/rvsdg/node.hpp Node: the origins of the inputs, the outputs, the subregions;
    jlm/rvsdg/region.hpp Region: arguments, origins of the results, nodes. [id] names the node. *)
Inductive node := Node (id : nat) (k : kind) (ins outs : list oid) (subs : list region)
with region := Region (args res : list oid) (nodes : list node).

Definition nkind (n : node) : kind := let 'Node _ k _ _ _ := n in k.
Definition nid (n : node) : nat := let 'Node id _ _ _ _ := n in id.
Definition nins (n : node) : list oid := let 'Node _ _ ins _ _ := n in ins.
Definition nouts (n : node) : list oid := let 'Node _ _ _ outs _ := n in outs.
Definition nsubs (n : node) : list region := let 'Node _ _ _ _ subs := n in subs.
Definition rargs (r : region) : list oid := let 'Region args _ _ := r in args.
Definition rres (r : region) : list oid := let 'Region _ res _ := r in res.
Definition rnodes (r : region) : list node := let 'Region _ _ ns := r in ns.

(** jlm/rvsdg/node.hpp:301-308 Output::divert_users: all inputs with origin o get the origin o'.
    [ns] and [res] are the nodes and results of the region that owns o. *)
Definition sub1 (o o' x : oid) : oid := if decide (x = o) then o' else x.
Definition divert_ins (o o' : oid) (n : node) : node :=
  let 'Node id k ins outs subs := n in Node id k (sub1 o o' <$> ins) outs subs.
Definition divert_users (o o' : oid) (ns : list node) (res : list oid) : list node * list oid :=
  (divert_ins o o' <$> ns, sub1 o o' <$> res).
(** jlm/rvsdg/node.hpp Output::IsDead, within the region that owns the output *)
Definition is_used (o : oid) (ns : list node) (res : list oid) : bool :=
  bool_decide (o ∈ res) || existsb (fun n => bool_decide (o ∈ nins n)) ns.
Definition unused (o : oid) (r : region) : bool := negb (is_used o (rnodes r) (rres r)).

(** removing the elements whose position satisfies [p] *)
Fixpoint drop_at {A} (p : nat -> bool) (l : list A) : list A :=
  match l with [] => [] | x :: l => let l' := drop_at (fun i => p (S i)) l in if p 0 then l' else x :: l' end.
(** jlm/rvsdg/region.cpp:281-306 RemoveResults *)
Definition remove_results (p : nat -> bool) (r : region) : region :=
  let 'Region args res ns := r in Region args (drop_at p res) ns.
(** jlm/rvsdg/region.cpp:212-238 RemoveArguments. Only dead arguments are removed there, and the callers assert that
    the number removed is the number requested; here [None] means that assertion fails. *)
Definition remove_arguments (p : nat -> bool) (r : region) : option region :=
  if forallb (fun '(i, a) => negb (p i) || unused a r) (imap (fun i a => (i, a)) (rargs r))
  then let 'Region args res ns := r in Some (Region (drop_at p args) res ns) else None.
