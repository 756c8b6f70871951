(** Model of jlm/util/TarjanScc.hpp: FindStronglyConnectedComponents.

    Vectors of size numNodes are total functions on nat with point update; that
    no index outside [0, numNodes) is ever used is part of the invariant in
    Proofs.v (only nodes below numNodes are ever on a stack).
    The successor functor is a list valued function (the order of the list is
    arbitrary, every theorem quantifies over it).
    [None] is either "out of fuel" (shown impossible for [run]) or top() of an
    empty stack (undefined behaviour, also shown impossible). *)
From stdpp Require Import base list list_numbers.

Definition upd (f : nat -> nat) (i x : nat) : nat -> nat := fun j => if j =? i then x else f j.

Section Tarjan.
  (** TarjanScc.hpp:50-58: numNodes, unificationRoot, successors; MAX is
      std::numeric_limits<NodeType>::max() *)
  Variables (numNodes MAX : nat) (unificationRoot : nat -> nat) (successors : nat -> list nat).

  (** TarjanScc.hpp:66-68 *)
  Definition NOT_VISITED : nat := MAX.
  Definition SCC_FINISHED : nat := MAX - 1.

  (** TarjanScc.hpp:59-83: the local variables and the output vectors *)
  Record state := mk {
    sccsFinished : nat; sccIndex : nat -> nat; rto : list nat;
    order : nat -> nat; nextOrder : nat; lowLink : nat -> nat;
    dfsStack : list nat; sccStack : list nat }.

  (** TarjanScc.hpp:104-110: push the successors not visited before *)
  Definition push_successors (ord : nat -> nat) (node : nat) (stk : list nat) : list nat :=
    fold_left (fun stk next => let next := unificationRoot next in
                               if ord next =? NOT_VISITED then next :: stk else stk)
              (successors node) stk.

  (** TarjanScc.hpp:98-111: first visit of node *)
  Definition first_visit (s : state) (node : nat) : state :=
    let ord := upd (order s) node (nextOrder s) in
    mk (sccsFinished s) (sccIndex s) (rto s) ord (S (nextOrder s))
       (upd (lowLink s) node (nextOrder s))
       (push_successors ord node (dfsStack s)) (node :: sccStack s).

  (** TarjanScc.hpp:120-128: the loop over successors in the post visit *)
  Definition relax (ord : nat -> nat) (node : nat) (low : nat -> nat) : nat -> nat :=
    fold_left (fun low next => let next := unificationRoot next in
                               if ord next =? SCC_FINISHED then low
                               else upd low node (Nat.min (low node) (low next)))
              (successors node) low.

  (** TarjanScc.hpp:135-145: pop an SCC from sccStack down to node *)
  Fixpoint pop_scc (node thisSccIndex : nat) (stk : list nat) (ord idx : nat -> nat) (rto : list nat)
    : option (list nat * (nat -> nat) * (nat -> nat) * list nat) :=
    match stk with
    | [] => None
    | top :: stk =>
      let ord := upd ord top SCC_FINISHED in
      let idx := upd idx top thisSccIndex in
      let rto := rto ++ [top] in
      if top =? node then Some (stk, ord, idx, rto)
      else pop_scc node thisSccIndex stk ord idx rto
    end.

  (** TarjanScc.hpp:116-149: second visit of node, with the stack already popped to [rest] *)
  Definition post_visit (s : state) (node : nat) (rest : list nat) : option state :=
    let low := relax (order s) node (lowLink s) in
    if low node =? order s node then
      match pop_scc node (sccsFinished s) (sccStack s) (order s) (sccIndex s) (rto s) with
      | None => None
      | Some (stk, ord, idx, r) =>
        Some (mk (S (sccsFinished s)) idx r ord (nextOrder s) low rest stk)
      end
    else Some (mk (sccsFinished s) (sccIndex s) (rto s) (order s) (nextOrder s) low rest (sccStack s)).

  (** TarjanScc.hpp:93-151: one iteration of the while loop, dfsStack = node :: rest *)
  Definition step (s : state) (node : nat) (rest : list nat) : option state :=
    if order s node =? NOT_VISITED then Some (first_visit s node)
    else if order s node =? SCC_FINISHED then
      Some (mk (sccsFinished s) (sccIndex s) (rto s) (order s) (nextOrder s) (lowLink s) rest (sccStack s))
    else post_visit s node rest.

  (** TarjanScc.hpp:93: while (!dfsStack.empty()) *)
  Fixpoint loop (fuel : nat) (s : state) : option state :=
    match dfsStack s with
    | [] => Some s
    | node :: rest =>
      match fuel with
      | 0 => None
      | S fuel => match step s node rest with
                  | None => None
                  | Some s' => loop fuel s'
                  end
      end
    end.

  (** TarjanScc.hpp:86-92: body of the loop over startNode *)
  Definition start (fuel : nat) (os : option state) (startNode : nat) : option state :=
    match os with
    | None => None
    | Some s =>
      if negb (unificationRoot startNode =? startNode) then Some s
      else if negb (order s startNode =? NOT_VISITED) then Some s
      else loop fuel (mk (sccsFinished s) (sccIndex s) (rto s) (order s) (nextOrder s) (lowLink s)
                         (startNode :: dfsStack s) (sccStack s))
    end.

  (** Enough iterations for any single DFS: see Proofs.v *)
  Definition fuel : nat := S (sum_list_with (fun v => S (length (successors v))) (seq 0 numNodes)).

  (** TarjanScc.hpp:50-157; [idx0] is the caller's sccIndex vector after
      resize(numNodes): old entries survive, new ones are 0 *)
  Definition init (idx0 : nat -> nat) : state :=
    mk 0 idx0 [] (fun _ => NOT_VISITED) 0 (fun _ => 0) [] [].
  Definition run (idx0 : nat -> nat) : option state :=
    fold_left (start fuel) (seq 0 numNodes) (Some (init idx0)).
End Tarjan.
