(** Model of the def-use graph of one region: jlm/rvsdg/region.cpp, node.cpp,
    node.hpp, simple-node.cpp, structural-node.cpp.

    - A pointer is a number.  The memory allocator is free: every operation that
      allocates takes the new pointers as arguments, so that addresses of
      destroyed objects may be used again.
    - The nodes, inputs and outputs that are alive and belong to the region are
      kept in finite maps.  Inputs and outputs of other regions are not in the
      maps: the region checks of the code (node.cpp:29, 72) are lookups.
    - Types are numbers ([Type::operator==] is equality).
    - [UB] stands for everything the code must not do: dereferencing a dead
      pointer, linking an element twice into an intrusive list, unlinking an
      element that is not linked, deleting a node that still has users (a
      JLM_ASSERT in debug builds, dangling pointers in release builds).
    - Subregions of structural nodes, and the links between structural inputs
      (outputs) and region arguments (results), are not modelled.
    - size_t counters are unbounded. *)
From stdpp Require Import base list gmap.

Notation ptr := nat (only parsing).
Inductive owner := ONode (n : ptr) | ORegion.
Global Instance owner_eq_dec : EqDecision owner.
Proof. solve_decision. Defined.
(** node.hpp:37-148 class Input: owner_, origin_ (null while detached), index_, Type_ *)
Record input := { in_owner : owner; in_origin : option ptr; in_index : nat; in_type : nat }.
(** node.hpp:210-470 class Output: Owner_, Users_, NumUsers_, index_, Type_ *)
Record output := { out_owner : owner; out_users : list ptr; out_nusers : nat; out_index : nat; out_type : nat }.
(** node.hpp:578-800 class Node: Id_, inputs_, outputs_, numSuccessors_ *)
Record node := { nd_id : nat; nd_inputs : list ptr; nd_outputs : list ptr; nd_succ : nat }.
(** an intrusive list of the region with its element counter *)
Record ilist := { il_elems : list ptr; il_size : nat }.
(** region.hpp:840-867 class Region *)
Record region := {
  inputs : gmap ptr input; outputs : gmap ptr output; nodes : gmap ptr node;
  args : list ptr; results : list ptr;
  top : ilist; bottom : ilist; all_nodes : ilist; next_id : nat }.

Definition set_inputs f (s : region) : region :=
  {| inputs := f (inputs s); outputs := outputs s; nodes := nodes s; args := args s; results := results s;
     top := top s; bottom := bottom s; all_nodes := all_nodes s; next_id := next_id s |}.
Definition set_outputs f (s : region) : region :=
  {| inputs := inputs s; outputs := f (outputs s); nodes := nodes s; args := args s; results := results s;
     top := top s; bottom := bottom s; all_nodes := all_nodes s; next_id := next_id s |}.
Definition set_nodes f (s : region) : region :=
  {| inputs := inputs s; outputs := outputs s; nodes := f (nodes s); args := args s; results := results s;
     top := top s; bottom := bottom s; all_nodes := all_nodes s; next_id := next_id s |}.
Definition set_args x (s : region) : region :=
  {| inputs := inputs s; outputs := outputs s; nodes := nodes s; args := x; results := results s;
     top := top s; bottom := bottom s; all_nodes := all_nodes s; next_id := next_id s |}.
Definition set_results x (s : region) : region :=
  {| inputs := inputs s; outputs := outputs s; nodes := nodes s; args := args s; results := x;
     top := top s; bottom := bottom s; all_nodes := all_nodes s; next_id := next_id s |}.
Definition set_top x (s : region) : region :=
  {| inputs := inputs s; outputs := outputs s; nodes := nodes s; args := args s; results := results s;
     top := x; bottom := bottom s; all_nodes := all_nodes s; next_id := next_id s |}.
Definition set_bottom x (s : region) : region :=
  {| inputs := inputs s; outputs := outputs s; nodes := nodes s; args := args s; results := results s;
     top := top s; bottom := x; all_nodes := all_nodes s; next_id := next_id s |}.
Definition set_all x (s : region) : region :=
  {| inputs := inputs s; outputs := outputs s; nodes := nodes s; args := args s; results := results s;
     top := top s; bottom := bottom s; all_nodes := x; next_id := next_id s |}.
Definition set_next_id x (s : region) : region :=
  {| inputs := inputs s; outputs := outputs s; nodes := nodes s; args := args s; results := results s;
     top := top s; bottom := bottom s; all_nodes := all_nodes s; next_id := x |}.

(** region.cpp:139-150 Region::Region *)
Definition il_empty : ilist := {| il_elems := []; il_size := 0 |}.
Definition empty_region : region :=
  {| inputs := ∅; outputs := ∅; nodes := ∅; args := []; results := [];
     top := il_empty; bottom := il_empty; all_nodes := il_empty; next_id := 0 |}.

(** util/intrusive-list.hpp push_back / erase, with the counter updates of
    region.cpp:353-407 (onTopNodeAdded, onTopNodeRemoved, onBottomNodeAdded,
    onBottomNodeRemoved, onNodeAdded, onNodeRemoved) *)
Definition il_push (x : ptr) (l : ilist) : option ilist :=
  if decide (x ∈ il_elems l) then None
  else Some {| il_elems := il_elems l ++ [x]; il_size := S (il_size l) |}.
Definition il_erase (x : ptr) (l : ilist) : option ilist :=
  if decide (x ∈ il_elems l)
  then Some {| il_elems := filter (fun y => y <> x) (il_elems l); il_size := pred (il_size l) |}
  else None.
Definition on_top_added (p : ptr) (s : region) : option region := l ← il_push p (top s); Some (set_top l s).
Definition on_top_removed (p : ptr) (s : region) : option region := l ← il_erase p (top s); Some (set_top l s).
Definition on_bottom_added (p : ptr) (s : region) : option region := l ← il_push p (bottom s); Some (set_bottom l s).
Definition on_bottom_removed (p : ptr) (s : region) : option region := l ← il_erase p (bottom s); Some (set_bottom l s).
Definition on_node_added (p : ptr) (s : region) : option region := l ← il_push p (all_nodes s); Some (set_all l s).
Definition on_node_removed (p : ptr) (s : region) : option region := l ← il_erase p (all_nodes s); Some (set_all l s).

Definition with_origin (o : option ptr) (x : input) : input :=
  {| in_owner := in_owner x; in_origin := o; in_index := in_index x; in_type := in_type x |}.
Definition with_in_index (k : nat) (x : input) : input :=
  {| in_owner := in_owner x; in_origin := in_origin x; in_index := k; in_type := in_type x |}.
Definition with_out_index (k : nat) (x : output) : output :=
  {| out_owner := out_owner x; out_users := out_users x; out_nusers := out_nusers x; out_index := k; out_type := out_type x |}.
Definition with_users (l : list ptr) (n : nat) (x : output) : output :=
  {| out_owner := out_owner x; out_users := l; out_nusers := n; out_index := out_index x; out_type := out_type x |}.
Definition with_succ (k : nat) (x : node) : node :=
  {| nd_id := nd_id x; nd_inputs := nd_inputs x; nd_outputs := nd_outputs x; nd_succ := k |}.
Definition with_inputs (l : list ptr) (x : node) : node :=
  {| nd_id := nd_id x; nd_inputs := l; nd_outputs := nd_outputs x; nd_succ := nd_succ x |}.
Definition with_outputs (l : list ptr) (x : node) : node :=
  {| nd_id := nd_id x; nd_inputs := nd_inputs x; nd_outputs := l; nd_succ := nd_succ x |}.

(** node.cpp:167-182 Output::remove_user (called on the origin of the input) *)
Definition remove_user (i : ptr) (s : region) : option region :=
  x ← inputs s !! i;
  o ← in_origin x;
  y ← outputs s !! o;
  if decide (i ∈ out_users y) then
    let s := set_inputs <[i := with_origin None x]> s in
    let s := set_outputs <[o := with_users (filter (fun j => j <> i) (out_users y)) (pred (out_nusers y)) y]> s in
    match out_owner y with
    | ORegion => Some s
    | ONode n =>
      nd ← nodes s !! n;
      let s := set_nodes <[n := with_succ (pred (nd_succ nd)) nd]> s in
      if decide (pred (nd_succ nd) = 0) then on_bottom_added n s else Some s
    end
  else None.

(** node.cpp:184-202 Output::add_user *)
Definition add_user (i : ptr) (o : ptr) (s : region) : option region :=
  x ← inputs s !! i;
  y ← outputs s !! o;
  if decide (i ∈ out_users y) then None else
  let s := set_inputs <[i := with_origin (Some o) x]> s in
  s ← match out_owner y with
      | ORegion => Some s
      | ONode n =>
        nd ← nodes s !! n;
        s ← (if decide (nd_succ nd = 0) then on_bottom_removed n s else Some s);
        Some (set_nodes <[n := with_succ (S (nd_succ nd)) nd]> s)
      end;
  Some (set_outputs <[o := with_users (out_users y ++ [i]) (S (out_nusers y)) y]> s).

(** Input::~Input (node.cpp:19-22) and release of its memory *)
Definition destroy_input (i : ptr) (s : region) : option region :=
  s ← remove_user i s; Some (set_inputs (delete i) s).

(** Construction of an input: node.cpp:24-58.  [None]: an exception is thrown
    (CheckTypes), before anything has been changed. *)
Definition check_types (o : ptr) (ty : nat) (s : region) : bool :=
  match outputs s !! o with
  | None => false
  | Some y => bool_decide (ty = out_type y)
  end.
Definition new_input (i : ptr) (ow : owner) (o : ptr) (ty : nat) (s : region) : option region :=
  add_user i o (set_inputs <[i := {| in_owner := ow; in_origin := None; in_index := 0; in_type := ty |}]> s).

(** node.cpp:248-255 Node::Node *)
Definition node_ctor (p : ptr) (s : region) : option region :=
  let s := set_nodes <[p := {| nd_id := next_id s; nd_inputs := []; nd_outputs := []; nd_succ := 0 |}]> s in
  let s := set_next_id (S (next_id s)) s in
  s ← on_bottom_added p s;
  s ← on_top_added p s;
  on_node_added p s.

Fixpoint destroy_inputs (l : list ptr) (s : region) : option region :=
  match l with
  | [] => Some s
  | i :: l => s ← destroy_input i s; destroy_inputs l s
  end.
(** node.cpp:257-272 Node::~Node *)
Definition node_dtor (p : ptr) (s : region) : option region :=
  nd ← nodes s !! p;
  if decide (nd_succ nd = 0) then
    let s := set_outputs (fun m => foldr delete m (nd_outputs nd)) s in
    s ← on_bottom_removed p s;
    s ← (if decide (nd_inputs nd = []) then on_top_removed p s else Some s);
    s ← destroy_inputs (nd_inputs nd) s;
    s ← on_node_removed p s;
    Some (set_nodes (delete p) s)
  else None.

(** ** operations with observers *)
(** region.cpp:409-455 the notifications a region sends to its observers *)
Inductive event :=
| ENodeCreate (p : ptr) | ENodeDestroy (p : ptr)
| EInputCreate (i : ptr) | EInputChange (i : ptr) (oldOrigin newOrigin : ptr) | EInputDestroy (i : ptr).
(** result of an operation: it ends normally, by an exception, or is undefined *)
Inductive res (A : Type) := Ok (a : A) | Throws (a : A) | UB.
Arguments Ok {_} _. Arguments Throws {_} _. Arguments UB {_}.

Section Ops.
  (** the state of the observers, and their reaction to an event; they look at
      the region but do not change it *)
  Context {T : Type} (obs : event -> region -> T -> T).
  Local Notation state := (region * T)%type.
  Definition notify (e : event) (s : state) : state := (s.1, obs e s.1 s.2).
  Definition lift (f : region -> option region) (s : state) : option state := r ← f s.1; Some (r, s.2).

  (** node.cpp:280-303 Node::addInput *)
  Definition add_input_to_node (p i : ptr) (notifyRegion : bool) (s : state) : option state :=
    nd ← nodes s.1 !! p;
    x ← inputs s.1 !! i;
    s ← (if decide (nd_inputs nd = []) then lift (on_top_removed p) s else Some s);
    let s := (set_inputs <[i := with_in_index (length (nd_inputs nd)) x]> s.1, s.2) in
    let s := (set_nodes <[p := with_inputs (nd_inputs nd ++ [i]) nd]> s.1, s.2) in
    Some (if notifyRegion then notify (EInputCreate i) s else s).
  (** addInput(std::make_unique<NodeInput>(o, this, ty), notifyRegion) *)
  Definition add_input (p i o ty : nat) (notifyRegion : bool) (s : state) : res state :=
    if check_types o ty s.1
    then match (s ← lift (new_input i (ONode p) o ty) s; add_input_to_node p i notifyRegion s) with
         | Some s => Ok s | None => UB end
    else Throws s.
  (** node.hpp:711-719 addOutput(std::make_unique<NodeOutput>(this, ty)) *)
  Definition add_output (p o ty : nat) (s : state) : option state :=
    nd ← nodes s.1 !! p;
    let y := {| out_owner := ONode p; out_users := []; out_nusers := 0; out_index := length (nd_outputs nd); out_type := ty |} in
    Some (set_nodes <[p := with_outputs (nd_outputs nd ++ [o]) nd]> (set_outputs <[o := y]> s.1), s.2).

  Fixpoint add_inputs (p : ptr) (l : list (ptr * ptr * nat)) (s : state) : res state :=
    match l with
    | [] => Ok s
    | (i, o, ty) :: l =>
      match add_input p i o ty false s with Ok s => add_inputs p l s | r => r end
    end.
  Fixpoint add_outputs (p : ptr) (l : list (ptr * nat)) (s : state) : option state :=
    match l with
    | [] => Some s
    | (o, ty) :: l => s ← add_output p o ty s; add_outputs p l s
    end.
  (** an exception in a constructor: the already constructed base class Node is destroyed *)
  Definition unwind (p : ptr) (s : state) : res state :=
    match lift (node_dtor p) s with Some s => Throws s | None => UB end.
  (** simple-node.cpp:19-45 SimpleNode::SimpleNode.  [ins] are the addresses of
      the inputs, [outs] addresses and types of the outputs; [argTypes] are the
      argument types of the operation. *)
  Definition create_simple (p : ptr) (argTypes : list nat) (operands : list ptr) (ins : list ptr)
      (outs : list (ptr * nat)) (s : state) : res state :=
    match lift (node_ctor p) s with
    | None => UB
    | Some s =>
      if decide (length argTypes = length operands) then
        match add_inputs p (zip (zip ins operands) argTypes) s with
        | UB => UB
        | Throws s => unwind p s
        | Ok s =>
          match add_outputs p outs s with
          | None => UB
          | Some s => Ok (notify (ENodeCreate p) s)
          end
        end
      else unwind p s
    end.
  (** structural-node.cpp:45-57 StructuralNode::StructuralNode *)
  Definition create_structural (p : ptr) (nsubregions : nat) (s : state) : res state :=
    match lift (node_ctor p) s with
    | None => UB
    | Some s => if decide (nsubregions = 0) then unwind p s else Ok (notify (ENodeCreate p) s)
    end.

  (** node.cpp:305-340 Node::RemoveInputs: the loop over the inputs; [live]
      collects the inputs that stay.  The vector inputs_ keeps its size until the
      loop has finished. *)
  Fixpoint remove_inputs_loop (indices : list nat) (l : list ptr) (live : list ptr) (s : state) : option (state * list ptr) :=
    match l with
    | [] => Some (s, live)
    | i :: l =>
      x ← inputs s.1 !! i;
      if decide (in_index x ∈ indices)
      then s ← lift (destroy_input i) (notify (EInputDestroy i) s); remove_inputs_loop indices l live s
      else remove_inputs_loop indices l (live ++ [i]) (set_inputs <[i := with_in_index (length live) x]> s.1, s.2)
    end.
  Definition remove_inputs (p : ptr) (indices : list nat) (s : state) : option state :=
    if decide (indices = []) then Some s else
    nd ← nodes s.1 !! p;
    '(s, live) ← remove_inputs_loop indices (nd_inputs nd) [] s;
    nd ← nodes s.1 !! p;
    let s := (set_nodes <[p := with_inputs live nd]> s.1, s.2) in
    if decide (live = []) then lift (on_top_added p) s else Some s.

  (** node.cpp:342-369 Node::RemoveOutputs, region.cpp:209-264
      Region::RemoveArguments and PruneArguments: the loop over the outputs *)
  Fixpoint remove_outputs_loop (all : bool) (indices : list nat) (l : list ptr) (live : list ptr) (s : region) : option (region * list ptr) :=
    match l with
    | [] => Some (s, live)
    | o :: l =>
      y ← outputs s !! o;
      if decide (out_nusers y = 0 /\ (all = true \/ out_index y ∈ indices))
      then remove_outputs_loop all indices l live (set_outputs (delete o) s)
      else remove_outputs_loop all indices l (live ++ [o]) (set_outputs <[o := with_out_index (length live) y]> s)
    end.
  Definition remove_outputs (p : ptr) (indices : list nat) (s : state) : option state :=
    if decide (indices = []) then Some s else
    nd ← nodes s.1 !! p;
    '(r, live) ← remove_outputs_loop false indices (nd_outputs nd) [] s.1;
    Some (set_nodes <[p := with_outputs live nd]> r, s.2).
  Definition remove_arguments (indices : list nat) (s : state) : option state :=
    if decide (indices = []) then Some s else
    '(r, live) ← remove_outputs_loop false indices (args s.1) [] s.1;
    Some (set_args live r, s.2).
  Definition prune_arguments (s : state) : option state :=
    '(r, live) ← remove_outputs_loop true [] (args s.1) [] s.1;
    Some (set_args live r, s.2).
  (** region.cpp:168-178 Region::addArgument *)
  Definition add_argument (a ty : nat) (s : state) : state :=
    let y := {| out_owner := ORegion; out_users := []; out_nusers := 0; out_index := length (args s.1); out_type := ty |} in
    (set_args (args s.1 ++ [a]) (set_outputs <[a := y]> s.1), s.2).
  (** region.cpp:180-205 Region::insertArgument: everything from [index] on moves up by one *)
  Fixpoint shift_arguments (l : list ptr) (k : nat) (s : region) : option region :=
    match l with
    | [] => Some s
    | a :: l => y ← outputs s !! a; shift_arguments l (S k) (set_outputs <[a := with_out_index (S k) y]> s)
    end.
  Definition insert_argument (index a ty : nat) (s : state) : res state :=
    if decide (length (args s.1) < index) then Throws s else
    let y := {| out_owner := ORegion; out_users := []; out_nusers := 0; out_index := index; out_type := ty |} in
    match shift_arguments (drop index (args s.1)) index s.1 with
    | None => UB
    | Some r => Ok (set_args (take index (args s.1) ++ a :: drop index (args s.1)) (set_outputs <[a := y]> r), s.2)
    end.
  (** region.cpp:98-116, 266-278: RegionResult::Create, Region::addResult *)
  Definition add_result (i o ty : nat) (s : state) : res state :=
    if check_types o ty s.1
    then match (r ← new_input i ORegion o ty s.1; x ← inputs r !! i;
                Some (set_results (results r ++ [i]) (set_inputs <[i := with_in_index (length (results r)) x]> r))) with
         | Some r => Ok (notify (EInputCreate i) (r, s.2))
         | None => UB
         end
    else Throws s.
  (** region.cpp:280-305 Region::RemoveResults *)
  Definition remove_results (indices : list nat) (s : state) : option state :=
    if decide (indices = []) then Some s else
    '(s, live) ← remove_inputs_loop indices (results s.1) [] s;
    Some (set_results live s.1, s.2).

  (** node.cpp:62-80 Input::divert_to *)
  Definition divert_to (i newOrigin : ptr) (s : state) : res state :=
    match inputs s.1 !! i with
    | None => UB
    | Some x =>
      match in_origin x with
      | None => UB
      | Some oldOrigin =>
        if decide (oldOrigin = newOrigin) then Ok s
        else if check_types newOrigin (in_type x) s.1
        then match (r ← remove_user i s.1; add_user i newOrigin r) with
             | Some r => Ok (notify (EInputChange i oldOrigin newOrigin) (r, s.2))
             | None => UB
             end
        else Throws s
      end
    end.
  (** node.hpp:300-308 Output::divert_users; [fuel]: number of users *)
  Fixpoint divert_users_loop (fuel : nat) (o newOrigin : ptr) (s : state) : res state :=
    match outputs s.1 !! o with
    | None => UB
    | Some y =>
      match out_users y with
      | [] => Ok s
      | i :: _ =>
        match fuel with
        | O => UB
        | S fuel =>
          match divert_to i newOrigin s with
          | Ok s => divert_users_loop fuel o newOrigin s
          | r => r
          end
        end
      end
    end.
  Definition divert_users (o newOrigin : ptr) (s : state) : res state :=
    if decide (o = newOrigin) then Ok s else
    match outputs s.1 !! o with
    | None => UB
    | Some y => divert_users_loop (length (out_users y)) o newOrigin s
    end.

  (** region.cpp:307-313 Region::removeNode; the destructors of SimpleNode and
      StructuralNode notify the region first (simple-node.cpp:14-17,
      structural-node.cpp:40-45) *)
  Definition remove_node (p : ptr) (s : state) : option state :=
    lift (node_dtor p) (notify (ENodeDestroy p) s).
  (** region.cpp:324-339 Region::prune (not recursive) *)
  Fixpoint prune_loop (fuel : nat) (s : state) : option state :=
    match il_elems (bottom s.1) with
    | [] => Some s
    | p :: _ =>
      match fuel with
      | O => None
      | S fuel => s ← remove_node p s; prune_loop fuel s
      end
    end.
  Definition prune (s : state) : option state := prune_loop (size (nodes s.1)) s.

  (** ** histories *)
  Inductive command :=
  | CCreateSimple (p : ptr) (argTypes : list nat) (operands ins : list ptr) (outs : list (ptr * nat))
  | CCreateStructural (p : ptr) (nsubregions : nat)
  | CAddInput (p i o ty : nat)
  | CRemoveInputs (p : ptr) (indices : list nat)
  | CAddOutput (p o ty : nat)
  | CRemoveOutputs (p : ptr) (indices : list nat)
  | CAddArgument (a ty : nat)
  | CInsertArgument (index a ty : nat)
  | CRemoveArguments (indices : list nat)
  | CPruneArguments
  | CAddResult (i o ty : nat)
  | CRemoveResults (indices : list nat)
  | CDivertTo (i o : ptr)
  | CDivertUsers (o o' : ptr)
  | CRemoveNode (p : ptr)
  | CPrune.
  Definition of_option (x : option state) : res state := match x with Some s => Ok s | None => UB end.
  Definition exec (c : command) (s : state) : res state :=
    match c with
    | CCreateSimple p tys ops ins outs => create_simple p tys ops ins outs s
    | CCreateStructural p n => create_structural p n s
    | CAddInput p i o ty => add_input p i o ty true s
    | CRemoveInputs p ix => of_option (remove_inputs p ix s)
    | CAddOutput p o ty => of_option (add_output p o ty s)
    | CRemoveOutputs p ix => of_option (remove_outputs p ix s)
    | CAddArgument a ty => Ok (add_argument a ty s)
    | CInsertArgument k a ty => insert_argument k a ty s
    | CRemoveArguments ix => of_option (remove_arguments ix s)
    | CPruneArguments => of_option (prune_arguments s)
    | CAddResult i o ty => add_result i o ty s
    | CRemoveResults ix => of_option (remove_results ix s)
    | CDivertTo i o => divert_to i o s
    | CDivertUsers o o' => divert_users o o' s
    | CRemoveNode p => of_option (remove_node p s)
    | CPrune => of_option (prune s)
    end.
End Ops.
