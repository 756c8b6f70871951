(** Regions whose nodes are seen from inside one region: outputs are named within their region, subregions are part of the node.
    Used for passes that look at one node and its subregions. jlm/rvsdg: region.cpp, gamma.cpp, theta.cpp, simple-node.cpp, substitution.hpp *)
From stdpp Require Import base list gmap.
From Coq Require Import ZArith.

Notation oid := nat (only parsing).
(** operations: control constants, integer constants (w bits, unsigned reading), match (control.hpp:157-232: bits, mapping, default alternative), select, integer equality, control to integer;
    all others by a number *)
Inductive op := OCtl (k : nat) | OInt (w v : Z) | OMatch (w : Z) (mapping : list (Z * nat)) (default : nat) | OSelect | OEq (w : Z) | OCtlToInt | OOther (id : nat).
(** Node (gamma.hpp, theta.hpp, simple-node.hpp): the inputs (by their origins) and outputs. [KGamma]: inputs are the predicate and the entry variables; each subregion has the match content argument first, then the
    entry variables (gamma.cpp:228-275). [KTheta]: the subregion has the predicate as first result, then the loop variables *)
Inductive kind := KSimple (o : op) | KGamma (subs : list region) | KTheta (body : region)
with region := Region (args : list oid) (nodes : list node) (res : list oid)
with node := Node (k : kind) (ins outs : list oid).
Definition nkind (n : node) : kind := match n with Node k _ _ => k end.
Definition nins (n : node) : list oid := match n with Node _ i _ => i end.
Definition nouts (n : node) : list oid := match n with Node _ _ o => o end.
Definition rargs (r : region) : list oid := match r with Region a _ _ => a end.
Definition rnodes (r : region) : list node := match r with Region _ n _ => n end.
Definition rres (r : region) : list oid := match r with Region _ _ s => s end.
Definition all_outs (l : list node) : list oid := mjoin (map nouts l).

(** SubstitutionMap (substitution.hpp): the names of old outputs to those of new ones; lookup throws util::Error if there is none: None *)
Notation smap := (gmap nat nat) (only parsing).
Definition insert_all (olds news : list oid) (s : smap) : smap := foldl (fun s d => <[d.1 := d.2]> s) s (zip olds news).
(** SimpleNode::copy (simple-node.cpp:59-76), GammaNode::copy (gamma.cpp:477-506), ThetaNode::copy (theta.cpp:100-127): a node of the same kind with the substituted operands and new outputs, from
    the number [next] on. Subregions are taken over as they are, names in them mean nothing outside; that GammaNode::copy does not copy the match content argument is not modelled *)
Definition copy_node (n : node) (s : smap) (next : nat) : option (node * smap * nat) :=
  ins ← mapM (fun x => s !! x) (nins n);
  let outs := seq next (length (nouts n)) in
  Some (Node (nkind n) ins outs, insert_all (nouts n) outs s, next + length (nouts n)).
(** Region::copy (region.cpp:317-323), LoopUnswitching::CopyPredicateNodes: node after node *)
Fixpoint copy_nodes (l : list node) (s : smap) (next : nat) : option (list node * smap * nat) :=
  match l with
  | [] => Some ([], s, next)
  | n :: l => '(n', s, next) ← copy_node n s next; '(l', s, next) ← copy_nodes l s next; Some (n' :: l', s, next)
  end.
(** Output::divert_users (node.cpp): all users of old take new instead *)
Definition divert (olds news : list oid) (x : oid) : oid :=
  foldl (fun y d => if decide (x = d.1) then d.2 else y) x (zip olds news).
Definition divert_node (f : oid -> oid) (n : node) : node := Node (nkind n) (map f (nins n)) (nouts n).

(** the node that an output belongs to *)
Definition owner (l : list node) (x : oid) : option node := list_find (fun n => x ∈ nouts n) l ≫= fun d => Some d.2.
