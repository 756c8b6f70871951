(** What it means for the def-use graph of a region to be consistent, in terms of
    what the accessors of the API return. *)
From stdpp Require Import base list gmap.
From Verif.Region Require Import Model.

(** the number of users of an output, counted from its users *)
Definition users_of (s : region) (o : ptr) : list ptr := match outputs s !! o with Some y => out_users y | None => [] end.

Record consistent (s : region) : Prop := {
  (** the origin of an input exists, has the input as a user, and the types agree *)
  c_origin : forall i x, inputs s !! i = Some x ->
    exists o y, in_origin x = Some o /\ outputs s !! o = Some y /\ i ∈ out_users y /\ in_type x = out_type y;
  (** the users of an output exist and have it as origin; nobody is listed twice *)
  c_users : forall o y, outputs s !! o = Some y ->
    NoDup (out_users y) /\ out_nusers y = length (out_users y) /\
    forall i, i ∈ out_users y -> exists x, inputs s !! i = Some x /\ in_origin x = Some o;
  (** input(k) of a node, and result(k) of the region, is the input with that owner and index *)
  c_inputs : forall n k i,
    (exists nd, nodes s !! n = Some nd /\ nd_inputs nd !! k = Some i) <->
    (exists x, inputs s !! i = Some x /\ in_owner x = ONode n /\ in_index x = k);
  c_results : forall k i,
    results s !! k = Some i <-> (exists x, inputs s !! i = Some x /\ in_owner x = ORegion /\ in_index x = k);
  c_outputs : forall n k o,
    (exists nd, nodes s !! n = Some nd /\ nd_outputs nd !! k = Some o) <->
    (exists y, outputs s !! o = Some y /\ out_owner y = ONode n /\ out_index y = k);
  c_args : forall k o,
    args s !! k = Some o <-> (exists y, outputs s !! o = Some y /\ out_owner y = ORegion /\ out_index y = k);
  (** numSuccessors is the number of users of all outputs *)
  c_succ : forall n nd, nodes s !! n = Some nd ->
    nd_succ nd = length (concat (map (users_of s) (nd_outputs nd)));
  (** Nodes(), TopNodes() and BottomNodes() *)
  c_all : NoDup (il_elems (all_nodes s)) /\ il_size (all_nodes s) = length (il_elems (all_nodes s)) /\
    forall n, n ∈ il_elems (all_nodes s) <-> is_Some (nodes s !! n);
  c_top : NoDup (il_elems (top s)) /\ il_size (top s) = length (il_elems (top s)) /\
    forall n, n ∈ il_elems (top s) <-> exists nd, nodes s !! n = Some nd /\ nd_inputs nd = [];
  c_bottom : NoDup (il_elems (bottom s)) /\ il_size (bottom s) = length (il_elems (bottom s)) /\
    forall n, n ∈ il_elems (bottom s) <->
      exists nd, nodes s !! n = Some nd /\ forall o y, o ∈ nd_outputs nd -> outputs s !! o = Some y -> out_users y = [];
  (** node ids are unique and below the next id *)
  c_ids : (forall n nd, nodes s !! n = Some nd -> nd_id nd < next_id s) /\
    (forall n m nd md, nodes s !! n = Some nd -> nodes s !! m = Some md -> nd_id nd = nd_id md -> n = m) }.

(** Legal uses of the API: objects that are named exist, addresses of new
    objects are unused, only dead nodes are removed, and inputs are only removed
    from nodes that have some. *)
Definition fresh_input (s : region) (i : ptr) : Prop := inputs s !! i = None.
Definition fresh_output (s : region) (o : ptr) : Prop := outputs s !! o = None.
Definition fresh_node (s : region) (p : ptr) : Prop := nodes s !! p = None.
Definition is_node (s : region) (p : ptr) : Prop := is_Some (nodes s !! p).
Definition is_input (s : region) (i : ptr) : Prop := is_Some (inputs s !! i).
Definition is_output (s : region) (o : ptr) : Prop := is_Some (outputs s !! o).
Definition dead (s : region) (p : ptr) : Prop := exists nd, nodes s !! p = Some nd /\ nd_succ nd = 0.
Definition legal (c : command) (s : region) : Prop :=
  match c with
  | CCreateSimple p tys ops ins outs =>
    fresh_node s p /\ length ins = length tys /\ NoDup ins /\ Forall (fresh_input s) ins /\
    NoDup (map fst outs) /\ Forall (fresh_output s) (map fst outs)
  | CCreateStructural p _ => fresh_node s p
  | CAddInput p i _ _ => is_node s p /\ fresh_input s i
  | CRemoveInputs p ix => exists nd, nodes s !! p = Some nd /\ nd_inputs nd <> []
  | CAddOutput p o _ => is_node s p /\ fresh_output s o
  | CRemoveOutputs p _ => is_node s p
  | CAddArgument a _ => fresh_output s a
  | CInsertArgument _ a _ => fresh_output s a
  | CAddResult i _ _ => fresh_input s i
  | CDivertTo i _ => is_input s i
  | CDivertUsers o _ => is_output s o
  | CRemoveNode p => dead s p
  | CRemoveArguments _ | CPruneArguments | CRemoveResults _ | CPrune => True
  end.
(** A history: the region changes by legal commands, whether they end normally or by an exception. *)
Inductive history {T} (obs : event -> region -> T -> T) : region * T -> region * T -> Prop :=
| h_refl s : history obs s s
| h_step s1 s2 s3 c : history obs s1 s2 -> legal c s2.1 -> (exec obs c s2 = Ok s3 \/ exec obs c s2 = Throws s3) ->
    history obs s1 s3.

(** ** pruning *)
(** A node is useless if all users of its outputs are inputs of useless nodes. *)
Inductive useless (s : region) : ptr -> Prop :=
| useless_intro n nd : nodes s !! n = Some nd ->
    (forall o i, o ∈ nd_outputs nd -> i ∈ users_of s o ->
       exists x m, inputs s !! i = Some x /\ in_owner x = ONode m /\ useless s m) ->
    useless s n.
(** [m] uses an output of [n] *)
Definition uses (s : region) (m n : ptr) : Prop :=
  exists nd i o x, nodes s !! n = Some nd /\ o ∈ nd_outputs nd /\ inputs s !! i = Some x /\ in_origin x = Some o /\ in_owner x = ONode m.
(** [n] has an output that a result of the region uses *)
Definition feeds_result (s : region) (n : ptr) : Prop :=
  exists nd i o x, nodes s !! n = Some nd /\ o ∈ nd_outputs nd /\ i ∈ results s /\ inputs s !! i = Some x /\ in_origin x = Some o.
(** some result can be reached from [n] along def-use edges *)
Inductive needed (s : region) : ptr -> Prop :=
| needed_result n : feeds_result s n -> needed s n
| needed_user n m : uses s m n -> needed s m -> needed s n.
Definition acyclic (s : region) : Prop := forall n, Acc (uses s) n.

(** ** comparing graphs *)
(** what identifies a node and an output apart from the edges *)
Definition shape_node (nd : node) := (nd_id nd, nd_inputs nd, nd_outputs nd).
Definition shape_out (y : output) := (out_owner y, out_index y, out_type y).
(** the def-use graphs of two regions are the same *)
Record same_graph (s s' : region) : Prop := {
  sg_in : inputs s' = inputs s;
  sg_n : forall n, shape_node <$> nodes s' !! n = shape_node <$> nodes s !! n;
  sg_o : forall o, shape_out <$> outputs s' !! o = shape_out <$> outputs s !! o;
  sg_u : forall o j, j ∈ users_of s' o <-> j ∈ users_of s o;
  sg_a : args s' = args s; sg_r : results s' = results s }.
(** only origins and users (and the counters derived from them) may differ *)
Record same_shape (s s' : region) : Prop := {
  ss_nodes : forall n, shape_node <$> nodes s !! n = shape_node <$> nodes s' !! n;
  ss_outputs : forall o, shape_out <$> outputs s !! o = shape_out <$> outputs s' !! o;
  ss_args : args s' = args s; ss_results : results s' = results s; ss_top : top s' = top s;
  ss_all : all_nodes s' = all_nodes s; ss_id : next_id s' = next_id s }.
