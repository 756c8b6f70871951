(** Executions of a loop with a gamma node in it. *)
From stdpp Require Import base list.
From Verif.ThetaGamma Require Import Model.

Section Loop.
  Context {value : Type}.
  (** An iteration of the region: from the values of the loop variables to the
      values of the outputs of nodes and of the gamma node, the subregion of
      the gamma node that is executed and whether the loop is repeated. *)
  Context (body : (nat -> value) -> (nat -> value) -> (nat -> value) -> nat -> bool -> Prop).

  Definition value_of (pre outs gouts : nat -> value) (o : origin) : value :=
    match o with Pre i => pre i | GammaOut k => gouts k | Other o => outs o end.

  (** the values of the loop variables at the end of the loop *)
  Inductive run (posts : nat -> origin) : (nat -> value) -> (nat -> value) -> Prop :=
    | run_exit pre outs gouts b : body pre outs gouts b false -> run posts pre (fun i => value_of pre outs gouts (posts i))
    | run_repeat pre outs gouts b fin : body pre outs gouts b true -> run posts (fun i => value_of pre outs gouts (posts i)) fin -> run posts pre fin.

  (** the body executes the gamma node: a result that is the argument of an
      entry variable hands on the value of the entry variable's origin *)
  Definition executes (g : gamma) : Prop := forall pre outs gouts b c results k j o,
    body pre outs gouts b c -> branches g !! b = Some results -> results !! k = Some (EntryArg j) -> entries g !! j = Some o ->
    gouts k = value_of pre outs gouts o.
  (** the body uses only the loop variables it says it uses, and the entry
      variables of the gamma node are among the uses *)
  Definition uses (g : gamma) (vars : list loop_var) : Prop :=
    (forall pre pre' outs gouts b c, body pre outs gouts b c -> (forall i v, vars !! i = Some v -> pre_used v = true -> pre' i = pre i) -> body pre' outs gouts b c) /\
    (forall i, Pre i ∈ entries g -> exists v, vars !! i = Some v /\ pre_used v = true).
  (** the roles of the subregions: the loop is repeated when rep is executed
      and left when ext is executed *)
  Definition roles (rep ext : nat) : Prop := forall pre outs gouts b c, body pre outs gouts b c -> b = if c then rep else ext.
  (** post values are pre values of loop variables that exist *)
  Definition posts_valid (vars : list loop_var) : Prop := forall i v j, vars !! i = Some v -> post v = Pre j -> j < length vars.

  Definition posts_of (vars : list loop_var) (i : nat) : origin := match vars !! i with Some v => post v | None => Other 0 end.
End Loop.
