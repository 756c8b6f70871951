(** What tracing is about: executions, and the output a value comes from. *)
From stdpp Require Import base list list_numbers fin_sets gmap.
From Verif.Rvsdg Require Import Model Spec.

(** o is an output of a node of region r or an argument of r *)
Definition owns (r : region) (o : oid) : Prop := o ∈ rargs r \/ exists n, n ∈ rnodes r /\ o ∈ nouts n.
(** r is a region of the module *)
Inductive region_of (t : region) : region -> Prop :=
  | ro_root : region_of t t
  | ro_sub r n s : region_of t r -> n ∈ rnodes r -> s ∈ nsubs n -> region_of t s.
(** s is subregion b of the node named id *)
Definition subregion (t : region) (id b : nat) (s : region) : Prop :=
  exists r n, region_of t r /\ n ∈ rnodes r /\ nid n = id /\ nsubs n !! b = Some s.

Section Exec.
  Context {V : Type} (ctl : V -> option nat) (content : V -> V) (sem : nat -> list V -> option (list V)) (addr imp : nat -> V) (t : region).
  Local Notation ev := (ev ctl content sem addr imp t).
  Local Notation frame := (region * env (V:=V))%type.
  (** The points an execution can be at: the region that is executed, with the values of its arguments, and below it the regions around it *)
  Inductive point : list frame -> Prop :=
    | p_root : point [(t, emp)]
    | p_gamma r e st n p xs b s pv vs : point ((r, e) :: st) -> n ∈ rnodes r -> nkind n = Gamma -> nins n = p :: xs -> nsubs n !! b = Some s ->
        ev e p pv -> ctl pv = Some b -> Forall2 (ev e) xs vs -> point ((s, bind (zip (rargs s) (content pv :: vs))) :: (r, e) :: st)
    | p_theta r e st n s vs : point ((r, e) :: st) -> n ∈ rnodes r -> nkind n = Theta -> nsubs n = [s] ->
        Forall2 (ev e) (nins n) vs -> point ((s, bind (zip (rargs s) vs)) :: (r, e) :: st)
    | p_again r e st n s e0 p qs pv vs : point ((s, e0) :: (r, e) :: st) -> n ∈ rnodes r -> nkind n = Theta -> nsubs n = [s] -> rres s = p :: qs ->
        ev e0 p pv -> ctl pv = Some 1 -> Forall2 (ev e0) qs vs -> point ((s, bind (zip (rargs s) vs)) :: (r, e) :: st)
    (* a function can be called with any values *)
    | p_lambda r e st n m s vs : point ((r, e) :: st) -> n ∈ rnodes r -> nkind n = Lambda m -> nsubs n = [s] ->
        point ((s, bind (zip (take m (rargs s)) vs)) :: (r, e) :: st)
    | p_phi r e st n s : point ((r, e) :: st) -> n ∈ rnodes r -> (nkind n = Phi \/ nkind n = Delta) -> nsubs n = [s] ->
        point ((s, emp) :: (r, e) :: st).
  (** the regions of the branches of gammas and of the bodies of thetas *)
  Definition branch_or_loop (s : region) : Prop := exists r n, region_of t r /\ n ∈ rnodes r /\ (nkind n = Gamma \/ nkind n = Theta) /\ s ∈ nsubs n.
  (** the stack st' is what is left of the stack st when regions are left (functions too if [inter]) and then phi regions are entered (if [phi]) *)
  Inductive leads (inter phi : bool) (st : list frame) : list frame -> Prop :=
    | leads_leave st0 st' : st = st0 ++ st' -> (inter = false -> Forall (fun f => branch_or_loop f.1) st0) -> leads inter phi st st'
    | leads_phi r e st' n s : leads inter phi st ((r, e) :: st') -> phi = true -> n ∈ rnodes r -> nkind n = Phi -> nsubs n = [s] -> leads inter phi st ((s, emp) :: (r, e) :: st').
  (** Whenever o has the value v, o' has the value v, in the same region, a region around it, or a phi region. Region [w] is not left. *)
  Definition comes_from (inter phi : bool) (w : option region) (st : list frame) (o o' : oid) : Prop :=
    forall r e st0 v, st = (r, e) :: st0 -> owns r o -> ev e o v -> exists r' e' st',
      leads inter phi st ((r', e') :: st') /\ point ((r', e') :: st') /\ owns r' o' /\ ev e' o' v /\
      (forall s, w = Some s -> s ∈ st.*1 -> s ∈ ((r', e') :: st').*1).
End Exec.
(** no result of a region and no input of a node uses the match content of a gamma *)
Definition no_match_content (t : region) : Prop :=
  forall r n s x, region_of t r -> n ∈ rnodes r -> nkind n = Gamma -> s ∈ nsubs n -> rargs s !! 0 = Some x -> x ∉ rres s /\ forall n', n' ∈ rnodes s -> x ∉ nins n'.
(** gammas have branches *)
Definition gammas_branch (t : region) : Prop := forall r n, region_of t r -> n ∈ rnodes r -> nkind n = Gamma -> nsubs n <> [].
(** what the operations do that tracing looks through: a load does not change memory states; an IO barrier passes its first operand on, which exists,
    and has one result *)
Definition loads_keep_states {V} (sem : nat -> list V -> option (list V)) (t : region) : Prop :=
  forall o id op k ins vs ws, (o, VSimple id true op (S k) ins) ∈ defs t -> sem op vs = Some ws -> ws !! S k = vs !! S k.
Definition barriers_forward {V} (sem : nat -> list V -> option (list V)) (barrier : nat -> bool) : Prop :=
  forall op vs ws, barrier op = true -> sem op vs = Some ws -> ws !! 0 = vs !! 0.
Definition barriers_have_operands (t : region) (barrier : nat -> bool) : Prop :=
  forall r n op, region_of t r -> n ∈ rnodes r -> nkind n = Simple op -> barrier op = true -> length (nouts n) = 1 /\ nins n <> [].

(** x is output k of node n; x is argument i of subregion b of node n *)
Definition is_output (t : region) (x : oid) (n : node) (k : nat) : Prop := exists r, region_of t r /\ n ∈ rnodes r /\ nouts n !! k = Some x.
Definition is_argument (t : region) (x : oid) (n : node) (b : nat) (s : region) (i : nat) : Prop :=
  exists r, region_of t r /\ n ∈ rnodes r /\ nsubs n !! b = Some s /\ rargs s !! i = Some x.
(** x is the match content argument of a branch *)
Definition is_match_content (t : region) (x : oid) : Prop := exists n b s, is_argument t x n b s 0 /\ nkind n = Gamma.
(** x passes the value of y on: what a tracer must not stop at. [w]: the region that it must not leave *)
Inductive passes_on (t : region) (inter phi llvm loaded : bool) (barrier : nat -> bool) (w : option (nat * nat)) (x y : oid) : Prop :=
  | po_entry n b s i : is_argument t x n b s i -> w <> Some (nid n, b) -> nkind n = Gamma -> nins n !! i = Some y -> passes_on t inter phi llvm loaded barrier w x y
  | po_loop n b s i : is_argument t x n b s i -> w <> Some (nid n, b) -> nkind n = Theta -> nins n !! i = Some y -> rres s !! S i = Some x -> passes_on t inter phi llvm loaded barrier w x y
  | po_lambda n b s i m : is_argument t x n b s (m + i) -> w <> Some (nid n, b) -> nkind n = Lambda m -> nins n !! i = Some y -> inter = true -> passes_on t inter phi llvm loaded barrier w x y
  | po_delta n b s i : is_argument t x n b s i -> w <> Some (nid n, b) -> nkind n = Delta -> nins n !! i = Some y -> inter = true -> passes_on t inter phi llvm loaded barrier w x y
  | po_phi n b s i : is_argument t x n b s (length (nouts n) + i) -> w <> Some (nid n, b) -> nkind n = Phi -> nins n !! i = Some y -> inter = true -> passes_on t inter phi llvm loaded barrier w x y
  | po_exit n k : is_output t x n k -> nkind n = Gamma -> nsubs n <> [] ->
      (forall s, s ∈ nsubs n -> exists a i, rres s !! k = Some a /\ rargs s !! S i = Some a /\ nins n !! S i = Some y) -> passes_on t inter phi llvm loaded barrier w x y
  | po_invariant n k s a : is_output t x n k -> nkind n = Theta -> nsubs n = [s] -> rres s !! S k = Some a -> rargs s !! k = Some a -> nins n !! k = Some y -> passes_on t inter phi llvm loaded barrier w x y
  | po_recursive n k s : is_output t x n k -> nkind n = Phi -> nsubs n = [s] -> rres s !! k = Some y -> inter = true -> phi = true -> passes_on t inter phi llvm loaded barrier w x y
  | po_barrier n k op : is_output t x n k -> nkind n = Simple op -> barrier op = true -> nins n !! 0 = Some y -> llvm = true -> passes_on t inter phi llvm loaded barrier w x y
  | po_load n k op : is_output t x n (S k) -> nkind n = Load op -> nins n !! S k = Some y -> llvm = true -> loaded = true -> passes_on t inter phi llvm loaded barrier w x y.
(** what a region pointer points to *)
Definition denotes (t : region) (w : option (nat * nat)) (wr : option region) : Prop :=
  match w, wr with None, None => True | Some (id, b), Some s => subregion t id b s | _, _ => False end.
