(** * Model of the normalizations of loads, stores and memory states

    Models  jlm/llvm/ir/operators/Load.cpp:43-405,
            jlm/llvm/ir/operators/Store.cpp:44-341,
            jlm/llvm/ir/operators/MemoryStateOperations.cpp:16-283 and 437-545,
            jlm/llvm/opt/NodeReduction.cpp:222-256 (their order),
            jlm/rvsdg/NodeNormalization.hpp:24-60 (NormalizeSequence, ReduceNode),
            jlm/llvm/ir/Trace.cpp:61-67,138-182 restricted to simple nodes.

    A graph of simple nodes is seen from one of its outputs: an output is the
    node that owns it together with the index of the output, a node is its
    identity, its operation and its operands.  Two outputs are the same
    pointer in the C++ program exactly when they are the same output of the
    same node; here: when the terms are equal (the identity is part of the
    term).  Everything that is not one of the modelled operations - region
    arguments, outputs of structural nodes, calls, arithmetic, imports - is an
    [OOther] node.  Volatile loads and stores are not modelled. *)
From stdpp Require Import tactics base list numbers.
Local Open Scope nat_scope.

(** The loaded or stored type: an identity and its store size in bytes,
    GetTypeStoreSize (jlm/llvm/ir/types.cpp). *)
Record ty := Ty { tid : nat; tsize : nat }.
Global Instance ty_eq_dec : EqDecision ty.
Proof. solve_decision. Defined.

(** The operations. *)
Inductive op :=
| OOther                         (** anything else *)
| OObject (sz : nat)             (** the address of a delta node or of an imported object of known size *)
| OAlloca (sz : nat)             (** outputs: address, memory state (alloca.hpp); [sz] = GetTypeAllocSize of the allocated type *)
| OLoad (t : ty)                 (** operands: address, states; outputs: value, states *)
| OStore (t : ty)                (** operands: address, value, states; outputs: states *)
| OMerge                         (** MemoryStateMergeOperation *)
| OJoin                          (** MemoryStateJoinOperation *)
| OSplit (k : nat)               (** MemoryStateSplitOperation with [k] results *)
| OLambdaExit                    (** LambdaExitMemoryStateMergeOperation *)
| OBarrier                       (** IOBarrierOperation: operands: barred value, io state *)
| OGep (c : option Z)            (** GetElementPtrOperation: operands: base, indices;
                                     [Some c] iff tryGetAsConstant yields a constant of offset [c] bytes *)
| OUndef.                        (** UndefValueOperation *)
Global Instance op_eq_dec : EqDecision op.
Proof. solve_decision. Defined.

(** rvsdg::Output of a rvsdg::SimpleNode. *)
Inductive out := Out (id : nat) (o : op) (operands : list out) (index : nat).

Section out_ind.
  Context (P : out → Prop).
  Hypothesis Hstep : ∀ id o ops i, Forall P ops → P (Out id o ops i).
  Fixpoint out_ind' (x : out) : P x :=
    match x with
    | Out id o ops i =>
        Hstep id o ops i
          ((fix go (l : list out) : Forall P l :=
              match l with
              | [] => Forall_nil_2 P
              | y :: l' => Forall_cons_2 P y l' (out_ind' y) (go l')
              end) ops)
    end.
End out_ind.

Global Instance out_eq_dec : EqDecision out.
Proof.
  refine (fix go (x y : out) {struct x} : Decision (x = y) :=
    match x, y with
    | Out i1 o1 l1 n1, Out i2 o2 l2 n2 =>
        match decide (i1 = i2), decide (o1 = o2), decide (n1 = n2) with
        | left E1, left E2, left E3 =>
            match (fix gol (l1 l2 : list out) {struct l1} : Decision (l1 = l2) :=
              match l1, l2 with
              | [], [] => left eq_refl
              | a :: l1', b :: l2' =>
                  match go a b with
                  | left Ea => match gol l1' l2' with
                               | left Eb => left _
                               | right Nb => right _
                               end
                  | right Na => right _
                  end
              | _, _ => right _
              end) l1 l2 with
            | left El => left _
            | right Nl => right _
            end
        | _, _, _ => right _
        end
    end); try congruence.
Defined.

(** TryGetOwnerNode: the node of an output: identity, operation, operands. *)
Definition node_of (x : out) : nat * op * list out :=
  match x with Out id o ops _ => (id, o, ops) end.
Definition index_of (x : out) : nat := match x with Out _ _ _ i => i end.
Definition is_alloca (x : out) : bool :=
  match x with Out _ (OAlloca _) _ _ => true | _ => false end.

(** The outputs of a freshly created node: CreateOpNode + outputs(). *)
Definition mk_load (id : nat) (t : ty) (a : out) (ss : list out) : list out :=
  map (Out id (OLoad t) (a :: ss)) (seq 0 (S (length ss))).
Definition mk_store (id : nat) (t : ty) (a v : out) (ss : list out) : list out :=
  map (Out id (OStore t) (a :: v :: ss)) (seq 0 (length ss)).
Definition mk_merge (id : nat) (ss : list out) : out := Out id OMerge ss 0.
Definition mk_join (id : nat) (ss : list out) : out := Out id OJoin ss 0.
Definition mk_split (id : nat) (s : out) (k : nat) : list out :=
  map (Out id (OSplit k) [s]) (seq 0 k).
Definition mk_exit (id : nat) (ss : list out) : out := Out id OLambdaExit ss 0.

(** The result of a normalization: a failed assertion (or an access beyond the
    end of a vector), std::nullopt, or the outputs that replace those of the
    node.  The two node identities [fr] and [S fr] given to a normalization
    are those of the nodes it creates. *)
Inductive res := Crash | Keep | Repl (l : list out).

(** ** Loads: the operands are [a :: ss] *)

(** LoadNonVolatileOperation::NormalizeLoadStore, Load.cpp:247-306. *)
Definition load_store (t : ty) (a : out) (ss : list out) : res :=
  match ss with
  | [] => Keep
  | Out id (OStore t') (a' :: v :: ss') i :: _ =>
      if bool_decide (a = a')
         && bool_decide (length ss' = length ss)
         && forallb (fun s => bool_decide (node_of s = (id, OStore t', a' :: v :: ss'))) ss
         && bool_decide (t = t')
      then Repl (v :: ss) else Keep
  | _ => Keep
  end.

(** is_load_alloca_reducible, Load.cpp:56-74: is [s] an output of an alloca
    node different from the one that owns [a]? *)
Definition other_alloca (a s : out) : bool :=
  is_alloca s && negb (bool_decide (node_of s = node_of a)).

(** NormalizeLoadAlloca, Load.cpp:56-74, 143-171, 308-317. *)
Definition load_alloca (fr : nat) (t : ty) (a : out) (ss : list out) : res :=
  if is_alloca a && existsb (other_alloca a) ss then
    let loadstates := List.filter (fun s => negb (other_alloca a s)) ss in
    let otherstates := List.filter (other_alloca a) ss in
    Repl (mk_load fr t a loadstates ++ otherstates)
  else Keep.

(** The vector of the states seen so far, Load.cpp:216-227, Store.cpp:137-148
    and MemoryStateOperations.cpp:171-180. *)
Definition dedup (ss : list out) : list out :=
  fold_left (fun acc s => if bool_decide (s ∈ acc) then acc else acc ++ [s]) ss [].
(** stateIndexMap. *)
Fixpoint index_in (s : out) (l : list out) : nat :=
  match l with
  | [] => 0
  | x :: l' => if bool_decide (x = s) then 0 else S (index_in s l')
  end.

(** LoadNonVolatileOperation::NormalizeDuplicateStates, Load.cpp:136-141, 208-245, 330-339. *)
Definition load_dup (fr : nat) (t : ty) (a : out) (ss : list out) : res :=
  if bool_decide (length (dedup ss) = length ss) then Keep
  else
    let new := dedup ss in
    Repl (Out fr (OLoad t) (a :: new) 0
          :: map (fun s => Out fr (OLoad t) (a :: new) (1 + index_in s new)) ss).

(** is_reducible_state, Load.cpp:76-91: the state of a store to another alloca. *)
Definition reducible_state (a s : out) : bool :=
  match s with
  | Out _ (OStore _) (b :: _) _ => other_alloca a b
  | _ => false
  end.

(** perform_load_store_state_reduction, Load.cpp:173-206: the results of the
    new load are handed out to the positions that were kept. *)
Fixpoint hand_out (a : out) (ss : list out) (ld : list out) : list out :=
  match ss with
  | [] => []
  | s :: ss' =>
      if reducible_state a s then s :: hand_out a ss' ld
      else match ld with
           | l :: ld' => l :: hand_out a ss' ld'
           | [] => s :: hand_out a ss' ld
           end
  end.

(** NormalizeLoadStoreState, Load.cpp:103-129, 173-206, 319-328. *)
Definition load_store_state (fr : nat) (t : ty) (a : out) (ss : list out) : res :=
  if bool_decide (length ss = 1) then Keep
  else if negb (is_alloca a) then Keep
  else
    let red := length (List.filter (reducible_state a) ss) in
    if bool_decide (red = length ss) || bool_decide (red = 0) then Keep
    else
      let new := List.filter (fun s => negb (reducible_state a s)) ss in
      Repl (Out fr (OLoad t) (a :: new) 0
            :: hand_out a ss (map (fun i => Out fr (OLoad t) (a :: new) (1 + i)) (seq 0 (length new)))).

(** llvm::traceOutput on simple nodes, Trace.cpp:31-67. *)
Fixpoint trace (x : out) : out :=
  match x with
  | Out _ OBarrier (a :: _) _ => trace a
  | _ => x
  end.

(** TracePointerOriginPrecise, Trace.cpp:152-182: the base pointer and the sum
    of the constant offsets. *)
Fixpoint trace_precise (x : out) : out * Z :=
  match x with
  | Out _ OBarrier (a :: _) _ => trace_precise a
  | Out _ (OGep (Some c)) (b :: _) _ => let '(base, off) := trace_precise b in (base, (off + c)%Z)
  | _ => (x, 0%Z)
  end.

(** getAllocationSizeInBytes, Load.cpp:341-364, Store.cpp:253-276. *)
Definition alloc_size (x : out) : option nat :=
  match x with
  | Out _ (OAlloca sz) _ _ => Some sz
  | Out _ (OObject sz) _ _ => Some sz
  | _ => None
  end.

(** The guard of normalizeIOBarrierAddress, Load.cpp:379-395, Store.cpp:292-308:
    the signed offset is converted to size_t and the addition is one of size_t,
    i.e. modulo 2^64. *)
Definition in_bounds_check (addr : out) (sz : nat) : bool :=
  let '(base, off) := trace_precise addr in
  match alloc_size base with
  | None => false
  | Some n => (((off mod 2 ^ 64 + Z.of_nat sz) mod 2 ^ 64) <=? Z.of_nat n)%Z
  end.

(** LoadNonVolatileOperation::normalizeIOBarrierAddress, Load.cpp:366-405. *)
Definition load_barrier (fr : nat) (t : ty) (a : out) (ss : list out) : res :=
  match a with
  | Out _ OBarrier (b :: _) _ =>
      if in_bounds_check b (tsize t) then Repl (mk_load fr t b ss) else Keep
  | _ => Keep
  end.

(** ** Stores: the operands are [a :: v :: ss] *)

(** NormalizeStoreMux, Store.cpp:44-60, 89-103, 162-171.  The result always
    has one element. *)
Definition store_mux (fr : nat) (t : ty) (a v : out) (ss : list out) : res :=
  match ss with
  | [] => Crash
  | Out id OMerge ms i :: _ =>
      if forallb (fun s => bool_decide (node_of s = (id, OMerge, ms))) ss
      then Repl [mk_merge (S fr) (mk_store fr t a v ms)]
      else Keep
  | _ => Keep
  end.

(** StoreOperation::MapMemoryStateOutputToInput, Store.hpp:151-161. *)
Definition store_state_input (s : out) : option out :=
  match s with
  | Out _ (OStore _) (_ :: _ :: ss) i => ss !! i
  | _ => None
  end.

(** normalizeStoreStore, Store.cpp:173-227.  [nusers] gives the number of users of an output. *)
Definition store_store (nusers : out → nat) (fr : nat) (t : ty) (a v : out) (ss : list out) : res :=
  match ss with
  | [] => Keep
  | Out id (OStore t1) (a1 :: v1 :: ss1) i :: _ =>
      if negb (bool_decide (trace a1 = trace a)) then Keep
      else if forallb (fun s => bool_decide (node_of s = (id, OStore t1, a1 :: v1 :: ss1))
                                && bool_decide (nusers s = 1)) ss
      then
        if bool_decide (tsize t < tsize t1) then Keep
        else match mapM store_state_input ss with
             | Some new => Repl (mk_store fr t a v new)
             | None => Crash
             end
      else Keep
  | _ => Keep
  end.

(** NormalizeStoreAlloca, Store.cpp:62-80, 105-122, 229-238.  [order] is the
    iteration order of the std::unordered_set of the outputs. *)
Definition store_alloca (nusers : out → nat) (order : list out → list out)
    (fr : nat) (t : ty) (a v : out) (ss : list out) : res :=
  if bool_decide (length ss = 1) then Keep
  else match a with
       | Out id (OAlloca sz) ops _ =>
           let st := Out id (OAlloca sz) ops 1 in
           if bool_decide (st ∈ ss) && bool_decide (nusers st = 1)
           then Repl (order (List.filter (fun s => negb (bool_decide (s = st))) (dedup ss)
                             ++ mk_store fr t a v [st]))
           else Keep
       | _ => Keep
       end.

(** StoreNonVolatileOperation::NormalizeDuplicateStates, Store.cpp:82-87, 124-160, 240-249. *)
Definition store_dup (fr : nat) (t : ty) (a v : out) (ss : list out) : res :=
  if bool_decide (length (dedup ss) = length ss) then Keep
  else
    let new := dedup ss in
    Repl (map (fun s => Out fr (OStore t) (a :: v :: new) (index_in s new)) ss).

(** StoreNonVolatileOperation::normalizeIOBarrierAddress, Store.cpp:278-317. *)
Definition store_barrier (fr : nat) (t : ty) (a v : out) (ss : list out) : res :=
  match a with
  | Out _ OBarrier (b :: _) _ =>
      if in_bounds_check b (tsize t) then Repl (mk_store fr t b v ss) else Keep
  | _ => Keep
  end.

(** normalizeStoreAllocaSingleUser, Store.cpp:319-341. *)
Definition store_single_user (nusers : out → nat) (t : ty) (a v : out) (ss : list out) : res :=
  if negb (is_alloca a) then Keep
  else if negb (bool_decide (nusers a = 1)) then Keep
  else Repl ss.

(** ** Memory state operations *)

(** Merge / Join NormalizeSingleOperand, MemoryStateOperations.cpp:37-46, 155-164. *)
Definition single_operand (ss : list out) : res :=
  match ss with [s] => Repl [s] | _ => Keep end.

(** Merge NormalizeDuplicateOperands, MemoryStateOperations.cpp:48-60;
    [order] is the iteration order of the hash set. *)
Definition merge_dup (order : list out → list out) (fr : nat) (ss : list out) : res :=
  if bool_decide (length (dedup ss) = length ss) then Keep
  else Repl [mk_merge fr (order (dedup ss))].

(** CollectNestedMemoryStateMergeOrJoinOperands, MemoryStateOperations.cpp:62-90. *)
Definition is_op (o : op) (x : out) : bool :=
  match x with Out _ o' _ _ => bool_decide (o = o') end.
Fixpoint collect1 (o : op) (x : out) : list out :=
  match x with
  | Out id o' ops i =>
      if bool_decide (o = o') then flat_map (collect1 o) ops else [Out id o' ops i]
  end.
Definition collect (o : op) (ss : list out) : list out := flat_map (collect1 o) ss.

(** NormalizeNestedMerges, MemoryStateOperations.cpp:92-105. *)
Definition merge_nested (fr : nat) (ss : list out) : res :=
  let new := collect OMerge ss in
  if bool_decide (ss = new) then Keep else Repl [mk_merge fr new].

(** NormalizeMergeSplit, MemoryStateOperations.cpp:107-132. *)
Definition through_split (s : out) : out :=
  match s with Out _ (OSplit _) (x :: _) _ => x | _ => s end.
Definition merge_split (fr : nat) (ss : list out) : res :=
  let new := map through_split ss in
  if bool_decide (ss = new) then Keep else Repl [mk_merge fr new].

(** MemoryStateJoinOperation::NormalizeDuplicateOperands, MemoryStateOperations.cpp:166-192. *)
Definition join_dup (fr : nat) (ss : list out) : res :=
  let new := dedup ss in
  if bool_decide (length new = length ss) then Keep
  else match new with
       | [s] => Repl [s]
       | _ => Repl [mk_join fr new]
       end.

(** NormalizeNestedJoins, MemoryStateOperations.cpp:194-207. *)
Definition join_nested (fr : nat) (ss : list out) : res :=
  let new := collect OJoin ss in
  if bool_decide (ss = new) then Keep else Repl [mk_join fr new].

(** MemoryStateSplitOperation::NormalizeSingleResult, MemoryStateOperations.cpp:230-241. *)
Definition split_single (k : nat) (s : out) : res :=
  if bool_decide (k = 1) then Repl [s] else Keep.

(** NormalizeNestedSplits, MemoryStateOperations.cpp:243-267: besides its
    results, the pairs of outputs whose users it diverts itself. *)
Definition split_nested (fr : nat) (k : nat) (s : out) : res * list (out * out) :=
  match s with
  | Out id (OSplit k') (x :: ops) _ =>
      let results := mk_split fr x (k' + k) in
      (Repl (drop k' results),
       zip (map (Out id (OSplit k') (x :: ops)) (seq 0 k')) results)
  | _ => (Keep, [])
  end.

(** NormalizeSplitMerge, MemoryStateOperations.cpp:269-283. *)
Definition split_merge (k : nat) (s : out) : res :=
  match s with
  | Out _ OMerge ms _ => if bool_decide (length ms = k) then Repl ms else Keep
  | _ => Keep
  end.

(** The lambda exit merge. NormalizeLoadFromAlloca, MemoryStateOperations.cpp:437-474. *)
Definition exit_load1 (s : out) : out :=
  match s with
  | Out _ (OLoad _) (a :: ss) (S i) => if is_alloca a then default s (ss !! i) else s
  | _ => s
  end.
(** NormalizeStoreToAlloca, MemoryStateOperations.cpp:476-514. *)
Definition exit_store1 (s : out) : out :=
  match s with
  | Out _ (OStore _) (a :: _ :: ss) i => if is_alloca a then default s (ss !! i) else s
  | _ => s
  end.
(** NormalizeAlloca, MemoryStateOperations.cpp:516-545. [ud] is the identity of the undef node. *)
Definition exit_alloca1 (ud : nat) (s : out) : out :=
  if is_alloca s then Out ud OUndef [] 0 else s.

Definition exit_with (f : out → out) (fr : nat) (ss : list out) : res :=
  let new := map f ss in
  if bool_decide (ss = new) then Keep else Repl [mk_exit fr new].
Definition exit_load : nat → list out → res := exit_with exit_load1.
Definition exit_store : nat → list out → res := exit_with exit_store1.
Definition exit_alloca (fr : nat) : list out → res := exit_with (exit_alloca1 (S fr)) fr.

(** ** NormalizeSequence, NodeNormalization.hpp:24-42, in the order of NodeReduction.cpp:222-256. *)
Fixpoint sequence (l : list res) : res :=
  match l with
  | [] => Keep
  | Keep :: l' => sequence l'
  | r :: _ => r
  end.
Definition reduce_load (fr : nat) (t : ty) (a : out) (ss : list out) : res :=
  sequence [load_store t a ss; load_alloca fr t a ss; load_dup fr t a ss;
            load_store_state fr t a ss; load_barrier fr t a ss].
Definition reduce_store (nusers : out → nat) (order : list out → list out)
    (fr : nat) (t : ty) (a v : out) (ss : list out) : res :=
  sequence [store_mux fr t a v ss; store_store nusers fr t a v ss; store_alloca nusers order fr t a v ss;
            store_dup fr t a v ss; store_barrier fr t a v ss; store_single_user nusers t a v ss].
Definition reduce_merge (order : list out → list out) (fr : nat) (ss : list out) : res :=
  sequence [single_operand ss; merge_dup order fr ss; merge_nested fr ss; merge_split fr ss].
Definition reduce_join (fr : nat) (ss : list out) : res :=
  sequence [single_operand ss; join_dup fr ss].
Definition reduce_split (fr : nat) (k : nat) (s : out) : res :=
  sequence [split_single k s; (split_nested fr k s).1; split_merge k s].
Definition reduce_exit (fr : nat) (ss : list out) : res :=
  sequence [exit_load fr ss; exit_store fr ss; exit_alloca fr ss].

(** divert_users(node, results), node.hpp:1089-1096: asserts that the node has
    as many outputs as there are results; ReduceNode then diverts output [n]
    to result [n]. *)
Definition divert (noutputs : nat) (r : res) : res :=
  match r with
  | Repl l => if bool_decide (length l = noutputs) then Repl l else Crash
  | _ => r
  end.

(** ** operator== of the operations: MemoryStateOperations.cpp:18-23, 136-141, 211-216.
    An operation is given with its number of operands. *)
Definition merge_equal (n : nat) (other : op * nat) : bool :=
  match other with (OMerge, m) => bool_decide (m = n) | _ => false end.
(** The cast is to MemoryStateMergeOperation. *)
Definition join_equal (n : nat) (other : op * nat) : bool :=
  match other with (OMerge, m) => bool_decide (m = n) | _ => false end.
Definition op_equal (x y : op * nat) : bool :=
  match x with
  | (OMerge, n) => merge_equal n y
  | (OJoin, n) => join_equal n y
  | _ => false
  end.
