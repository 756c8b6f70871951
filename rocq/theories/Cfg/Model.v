(** Control flow graphs: straightening, purging, pruning and SSA destruction.
    jlm/llvm/ir/cfg.hpp, cfg-node.hpp, cfg-node.cpp, basic-block.hpp, cfg-structure.cpp, ssa.cpp *)
From stdpp Require Import base list list_numbers fin_sets gmap fin_maps.
From Verif.Construct Require Import Model.

(** llvm/ir/tac.hpp, llvm/ir/operators/SsaPhi.hpp: a phi has a result and, for each incoming node, an operand; the other instructions are those of
    the aggregation tree's basic blocks *)
Inductive instr := Phi (r : nat) (ops : list (nat * nat)) | Tac (x : tac).
(** basic-block.hpp, cfg-node.hpp:84-: the instructions and the sinks of the out-edges in the order of their indices. The set of in-edges of a node is
    the set of the edges that lead to it *)
Record block := Block { code : list instr; succ : list nat }.
(** cfg.hpp: the basic blocks, and the sink of the entry node's only out-edge (cfg-structure.cpp has_valid_entry demands that there is one). Nodes are
    numbered; the entry is node 0, the exit node 1 *)
Record cfg := Cfg { blocks : gmap nat block; start : nat }.
Definition entry : nat := 0.
Definition exit : nat := 1.

(** basic-block.cpp:16-20 HasSsaPhiOperation, ssa.cpp:27 is<SsaPhiOperation>(bb.first()) *)
Definition has_phi (b : block) : bool := match code b with Phi _ _ :: _ => true | _ => false end.
(** the edges as pairs of source and sink *)
Definition edges (g : cfg) : list (nat * nat) := (entry, start g) :: p ← map_to_list (blocks g); (fun m => (p.1, m)) <$> succ p.2.
(** cfg-node.cpp:62-66 NumInEdges *)
Definition in_degree (g : cfg) (n : nat) : nat := length (filter (fun e => e.2 = n) (edges g)).
(** the sources of a node's in-edges *)
Definition preds (g : cfg) (n : nat) : list nat := remove_dups (fst <$> filter (fun e => e.2 = n) (edges g)).
(** cfg-node.hpp:170-178 divert_inedges, cfg-node.cpp:23-32 divert *)
Definition redirect (n m k : nat) : nat := if decide (k = n) then m else k.
Definition divert_inedges (n m : nat) (g : cfg) : cfg :=
  Cfg ((fun b => Block (code b) (redirect n m <$> succ b)) <$> blocks g) (redirect n m (start g)).
(** cfg.cpp:35-51 remove_node: it throws if there is an in-edge from another node *)
Definition remove_node (n : nat) (g : cfg) : option cfg :=
  if decide (Forall (fun e => e.2 = n -> e.1 = n) (edges g)) then Some (Cfg (delete n (blocks g)) (start g)) else None.
(** basic-block.hpp append_first *)
Definition append_first (l : list instr) (b : block) : block := Block (l ++ code b) (succ b).

(** cfg-structure.cpp:634-661 straighten, the body of the loop. Simplification: a block that is its own only predecessor and successor has its
    instructions inserted into themselves and is removed; the instructions are gone with it in any case *)
Definition straighten_at (g : cfg) (n : nat) : option cfg :=
  match blocks g !! n with
  | Some b =>
      match succ b with
      | [s] =>
          if decide (in_degree g s = 1) then
            match blocks g !! s with
            | Some c => if has_phi c then Some g
                        else remove_node n (divert_inedges n s (Cfg (<[s := append_first (code b) c]> (blocks g)) (start g)))
            | None => Some g
            end
          else Some g
      | _ => Some g
      end
  | None => Some g
  end.
(** the nodes are visited in the order of a std::unordered_set; the node that is removed is always the current one *)
Definition visit (f : cfg -> nat -> option cfg) : list nat -> cfg -> option cfg := fix go l g := match l with [] => Some g | n :: l => g ← f g n; go l g end.
Definition straighten : list nat -> cfg -> option cfg := visit straighten_at.

(** cfg-structure.cpp:663-698 purge, the body of the loop. [None]: the assertion NumOutEdges() == 1 fails or remove_node throws *)
Definition purge_at (g : cfg) (n : nat) : option cfg :=
  match blocks g !! n with
  | Some b =>
      match code b with
      | _ :: _ => Some g
      | [] => match succ b with
              | [s] => if decide (s = n) then Some g else remove_node n (divert_inedges n s g)
              | _ => None
              end
      end
  | None => Some g
  end.
Definition purge : list nat -> cfg -> option cfg := visit purge_at.

(** cfg-structure.cpp:703-723 compute_livenodes: [live g todo seen l]: the loop from the sets to_visit and visited ends with visited = l. The order in
    which the nodes are taken is arbitrary *)
Definition sinks (g : cfg) (n : nat) : list nat := if decide (n = entry) then [start g] else match blocks g !! n with Some b => succ b | None => [] end.
Inductive live (g : cfg) : gset nat -> gset nat -> gset nat -> Prop :=
  | live_done seen : live g ∅ seen seen
  | live_next n todo seen l : n ∈ todo -> n ∉ seen (* the assertion *) ->
      live g (todo ∖ {[n]} ∪ (list_to_set (sinks g n) ∖ ({[n]} ∪ seen))) ({[n]} ∪ seen) l -> live g todo seen l.
(** an iteration of compute_livenodes' loop without the assertion *)
Inductive live_step (g : cfg) : gset nat * gset nat -> gset nat * gset nat -> Prop :=
  | live_step_intro n todo seen : n ∈ todo ->
      live_step g (todo, seen) (todo ∖ {[n]} ∪ (list_to_set (sinks g n) ∖ ({[n]} ∪ seen)), {[n]} ∪ seen).
(** cfg-structure.cpp:728-743 compute_deadnodes: basic blocks only *)
Definition dead_nodes (g : cfg) (l : gset nat) : gset nat := dom (blocks g) ∖ l.
(** cfg-structure.cpp:749-764 compute_live_sinks: the basic blocks that are live and a sink of a dead node *)
Definition live_sinks (g : cfg) (dead : gset nat) : gset nat := list_to_set (snd <$> filter (fun e => e.1 ∈ dead) (edges g)) ∩ dom (blocks g) ∖ dead.
(** cfg-structure.cpp:766-802 update_phi_operands: the phis at the beginning of the block *)
Fixpoint update_phis (dead : gset nat) (l : list instr) : list instr :=
  match l with
  | Phi r ops :: l => Phi r (filter (fun p => p.1 ∉ dead) ops) :: update_phis dead l
  | _ => l
  end.
(** cfg-node.cpp:51-60 remove_inedges *)
Definition remove_inedges (n : nat) (g : cfg) : cfg := Cfg ((fun b => Block (code b) (filter (fun m => m <> n) (succ b))) <$> blocks g) (start g).
(** cfg-structure.cpp:804-813 remove_deadnodes, in the order of a std::unordered_set *)
Definition remove_deadnodes : list nat -> cfg -> option cfg := visit (fun g n => remove_node n (remove_inedges n g)).
(** cfg-structure.cpp:815-826 prune; [order]: the order in which the dead nodes are visited *)
Definition prune (order : gset nat -> list nat) (l : gset nat) (g : cfg) : option cfg :=
  let dead := dead_nodes g l in
  let sinks := live_sinks g dead in
  remove_deadnodes (order dead) (Cfg (map_imap (fun n b => Some (if decide (n ∈ sinks) then Block (update_phis dead (code b)) (succ b) else b)) (blocks g)) (start g)).

(** ssa.cpp *)
Section Destruct.
  (** the operation UndefValueOperation of the type of the variable *)
  Context (undef : nat -> nat).
  (** ssa.cpp:51-77: the intermediate block of each source, created when the first in-edge from it is seen; numbers from s on *)
  Definition intermediates (ps : list nat) (s : nat) : list (nat * nat) := zip ps (seq s (length ps)).
  Fixpoint find (p : nat) (l : list (nat * nat)) : option nat := match l with [] => None | (q, i) :: l => if decide (q = p) then Some i else find p l end.
  Definition divert_from (n : nat) (ims : list (nat * nat)) (p : nat) (m : nat) : nat :=
    if decide (m = n) then match find p ims with Some i => i | None => m end else m.
  (** ssa.cpp:83-113: the phis at the beginning of a block: what is appended to the intermediate block of each source, to the assignment block, and the
      results that become undefined values at the beginning of the first block; variables from v on. [None]: an assertion fails *)
  Fixpoint phi_moves (sources : list nat) (l : list instr) (v : nat) : option (list (nat * nat * list (nat * nat)) * list instr * nat) :=
    match l with
    | Phi r ops :: l =>
        if decide (length ops = length sources /\ Forall (fun p => p.1 ∈ sources) ops) then
          '(ms, rest, v') ← phi_moves sources l (S v); Some ((r, v, ops) :: ms, rest, v')
        else None
    | _ => Some ([], l, v)
    end.
  (** the instructions that are appended to the intermediate block of the source p, in this order *)
  Definition moves_of (p : nat) (ms : list (nat * nat * list (nat * nat))) : list instr :=
    '(r, v, ops) ← ms; q ← filter (fun q => q.1 = p) ops; [Tac (Assign v q.2)].
  (** ssa.cpp:42-114, one iteration of the loop over the phi blocks. [first]: the first basic block, taken before the loop. [s]: the next node number;
      [v]: the next variable number. [None]: a failed assertion, or the first block is the phi block or not a basic block (the first instruction is
      dropped after another one has been put in front of it, and the phi stays with its result moved away: the next iteration dereferences it) *)
  Definition destruct_at (first : nat) (st : cfg * nat * nat) (n : nat) : option (cfg * nat * nat) :=
    let '(g, s, v) := st in
    b ← blocks g !! n;
    let ass := s in
    let ps := preds g n in
    let ims := intermediates ps (S s) in
    '(ms, rest, v') ← phi_moves ps (code b) v;
    if decide (first = n) then None else
    let g1 := map_imap (fun p c => Some (Block (code c) (divert_from n ims p <$> succ c))) (blocks g) in
    let g2 := <[ass := Block ((fun m => Tac (Assign m.1.1 m.1.2)) <$> ms) [n]]> g1 in
    let g3 := foldl (fun g i => <[i.2 := Block (moves_of i.1 ms) [ass]]> g) g2 ims in
    let g4 := alter (fun c => Block rest (succ c)) n g3 in
    f ← g4 !! first;
    let g5 := <[first := Block (reverse ((fun m => Tac (Op (undef m.1.1) [] [m.1.1])) <$> ms) ++ code f) (succ f)]> g4 in
    Some (Cfg g5 (divert_from n ims entry (start g)), S s + length ps, v').
  Fixpoint destruct_all (first : nat) (l : list nat) (st : cfg * nat * nat) : option (cfg * nat * nat) :=
    match l with [] => Some st | n :: l => st ← destruct_at first st n; destruct_all first l st end.
  (** ssa.cpp:16-119 destruct_ssa; the phi blocks are visited in the order of a std::unordered_set *)
  Definition phi_blocks (g : cfg) : gset nat := dom (filter (fun p => has_phi p.2 = true) (blocks g)).
  Definition destruct_ssa (order : gset nat -> list nat) (g : cfg) (s v : nat) : option (cfg * nat * nat) := destruct_all (start g) (order (phi_blocks g)) (g, s, v).
End Destruct.
