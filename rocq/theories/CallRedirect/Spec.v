(** Executions of a call. *)
From stdpp Require Import base list.
From Verif.CallRedirect Require Import Model.

Section Call.
  Context {data cell : Type}.
  (** A memory state gives each memory node its contents. *)
  Inductive value :=
  | Data (d : data)
  | Memory (m : id -> cell).
  Context (ext : id).

  (** The memory nodes an edge stands for, when the edges ids are distinct: a
      node has its own edge or is represented by the external one. *)
  Definition represents (ids : list id) (e n : id) : Prop := n = e \/ (e = ext /\ ext ∈ ids /\ n ∉ ids).

  (** A value carries the contents that memory m has of node n. *)
  Definition carries (v : value) (n : id) (c : cell) : Prop := match v with Memory m => m n = c | Data _ => False end.

  (** An execution of the lambda with arguments args and the values of the
      edges of its subregion. *)
  Record executes (l : lambda) (args : nat -> value) (edges : inner -> value) : Prop := {
    ex_args : forall i, i < length (params l) -> edges (Arg i) = args i;
    (** the entry split: its outputs carry the contents at the entry *)
    ex_split : forall entry e n, entry_split l = Some entry -> e ∈ entry -> represents entry e n ->
      forall m, args (length (params l) - 1) = Memory m -> carries (edges (SplitOut e)) n (m n);
    (** the exit merge: its output, the memory state result, carries the
        contents of its inputs *)
    ex_merge : forall exit e o n r, exit_merge l = Some exit -> (e, o) ∈ exit -> represents (exit.*1) e n ->
      last (results l) = Some r -> forall c, carries (edges o) n c -> carries (edges r) n c;
    (** a node that no input of the exit merge represents keeps its contents *)
    ex_keeps : forall exit n r, exit_merge l = Some exit -> n ∉ exit.*1 -> ext ∉ exit.*1 ->
      last (results l) = Some r -> forall m, args (length (params l) - 1) = Memory m -> carries (edges r) n (m n)
  }.

  (** An execution of the call node: its outputs are the results of an
      execution of the lambda on its operands; the call entry merge and the
      call exit split combine and take apart the states. *)
  Record calls (l : lambda) (c : call) (env : nat -> value) (outs : diverted -> value) : Prop := {
    ca_body : exists args edges, executes l args edges /\
      (forall i o, operands c !! i = Some o -> args i = env o) /\
      (forall n r, results l !! n = Some r -> outs (CallOut n) = edges r);
    ca_merge : forall merge e o n, entry_merge c = Some merge -> (e, o) ∈ merge -> represents (merge.*1) e n ->
      exists om m, last (operands c) = Some om /\ env om = Memory m /\ carries (env o) n (m n);
    ca_split : forall ms e n, exit_split c = Some ms -> e ∈ ms -> represents ms e n ->
      forall x, carries (outs (CallOut (length (outputs c) - 1))) n x -> carries (outs (ExitOut e)) n x
  }.

  (** The users of a diverted output see what they saw before: the users of an
      output of the call its value, the users of a memory state behind the call
      the contents of all memory nodes it represents there. *)
  Definition same (c : call) (env : nat -> value) (outs : diverted -> value) (d : diverted) (o : nat) : Prop :=
    match d with
    | CallOut _ => env o = outs d
    | ExitOut m => forall ms n, exit_split c = Some ms -> represents ms m n -> exists x, carries (env o) n x /\ carries (outs d) n x
    end.

  (** The memory nodes of the lambda's exit are among those of its entry. *)
  Definition routed (l : lambda) : Prop := forall entry exit n, entry_split l = Some entry -> exit_merge l = Some exit ->
    n ∈ exit.*1 \/ ext ∈ exit.*1 -> n ∈ entry \/ ext ∈ entry.
  (** The call is of the lambda's type. *)
  Definition call_typed (otype : nat -> ty) (l : lambda) (c : call) : Prop :=
    otype <$> operands c = params l /\ length (outputs c) = length (results l) /\
    (forall n i t u, results l !! n = Some (Arg i) -> i < length (params l) -> outputs c !! n = Some (t, u) -> params l !! i = Some t).
End Call.
Arguments value : clear implicits.
