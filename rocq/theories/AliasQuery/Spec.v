(** What an alias query is about: the pointers that the outputs of a function have in an execution of it. *)
From stdpp Require Import base list fin_maps fin_sets gmap.
From Coq Require Import ZArith.
From Verif.AliasQuery Require Import Model.
Local Open Scope Z_scope.

(** memory objects: of a global variable, function or import; allocated by an execution of an alloca or malloc of the function; made elsewhere *)
Inductive obj := Global (o : nat) | Stack (o n : nat) | Heap (o n : nat) | Outside (n : nat).
Notation pointer := (obj * Z)%type (only parsing).
(** An execution of a function up to some moment. [events]: the evaluations of outputs of pointer type, in the order in which they happened, with the pointer they gave;
    evaluations that give no pointer to an object (undef, null) are not recorded. [now]: the evaluation that gave an output its current value, if it has one.
    [osize]: the sizes of objects *)
Record world := World { events : list (nat * pointer); now : nat -> option nat; osize : obj -> Z }.

(** the pointer is stored, passed to a call, cast, returned... *)
Definition escapes (G : graph) (o : nat) : Prop := UOther ∈ uses G o \/ UStoreValue ∈ uses G o.
Section World.
  Context (G : graph) (W : world).
  Definition happens (i o : nat) (p : pointer) : Prop := events W !! i = Some (o, p).
  (** before moment i, o was evaluated to p by one of the evaluations [occ] *)
  Definition from (occ : nat -> Prop) (i o : nat) (p : pointer) : Prop := exists j, (j < i)%nat /\ occ j /\ happens j o p.
  (** what the evaluation of an output takes its value from *)
  Definition justified (occ : nat -> Prop) (i o : nat) (p : pointer) : Prop :=
    match kind_of G o with
    | Import _ | Delta _ | Lambda => p = (Global o, 0)
    | Alloca _ _ => exists n, p = (Stack o n, 0)
    | Malloc _ => exists n, p = (Heap o n, 0)
    | Gep b c => exists y, from occ i b (p.1, y) /\ (forall d, c = Some d -> p.2 = y + d)
    | Select a b => from occ i a p \/ from occ i b p
    | Undef => False
    | GammaOut rs => exists r, r ∈ rs /\ from occ i r p
    | ThetaOut _ post => from occ i post p
    | ThetaPre input post => from occ i input p \/ from occ i post p
    | GammaArg x | Barrier x | Through x => from occ i x p
    | Param => match p.1 with Stack _ _ | Heap _ _ => False | _ => True end (* objects that were there before the function was called *)
    | Other => (* a pointer to an alloca only if one escaped before *)
        match p.1 with Stack _ _ => exists o' j y, (j < i)%nat /\ happens j o' (p.1, y) /\ escapes G o' | _ => True end
    end.
  (** the size of the object made by o, if it is a constant *)
  Definition constant_size (o : nat) : option Z :=
    match kind_of G o with
    | Delta n | Malloc (Some n) => Some n
    | Import n => if decide (n = 0) then None else Some n (* size 0: an incomplete type *)
    | Alloca (Some c) e => Some (c * e)
    | _ => None
    end.
  Definition everything (i : nat) : Prop := True.
  Definition current (i : nat) : Prop := exists o p, happens i o p /\ now W o = Some i.
  (** the value of o is the value of the output that traceOutput leads to (C48) *)
  Definition follows_norm (occ : nat -> Prop) : Prop := forall i o p, occ i -> happens i o p -> exists j, (j <= i)%nat /\ occ j /\ happens j (norm G o) p.
  (** executions: every evaluation takes its value from earlier ones; the current value of an output is up to date with the current values of its operands,
      except that a loop variable takes its value from the last iteration; pointers are in the bounds of objects (GEPs are inbounds) *)
  Record execution : Prop := {
    ex_events : forall i o p, happens i o p -> justified everything i o p;
    ex_now : forall o i, now W o = Some i -> exists p, happens i o p /\ ((forall x y, kind_of G o <> ThetaPre x y) -> justified current i o p);
    ex_norm : follows_norm everything;
    ex_norm_now : follows_norm current;
    ex_bounds : forall i o b x, happens i o (b, x) -> 0 <= x <= osize W b;
    ex_size : forall i o b x n, happens i o (b, x) -> constant_size o = Some n -> osize W b = n;
    ex_limit : forall b, 0 <= osize W b < 2 ^ 63 }.
  (** o has the value p now, and s bytes can be accessed there *)
  Definition accesses (o : nat) (s : Z) (p : pointer) : Prop := (exists i, now W o = Some i /\ happens i o p) /\ 0 <= s /\ p.2 + s <= osize W p.1.
  Definition share_byte (p : pointer) (s : Z) (q : pointer) (t : Z) : Prop := p.1 = q.1 /\ exists z, p.2 <= z < p.2 + s /\ q.2 <= z < q.2 + t.
  (** the outputs at which pointers come up *)
  Definition origin (o : nat) : Prop := match kind_of G o with Import _ | Delta _ | Lambda | Alloca _ _ | Malloc _ | Param | Other => True | _ => False end.
  (** no pointer comes up twice with different values: true if allocas, loads, calls... of pointers are not in loops *)
  Definition origins_fixed : Prop := forall o i j p q, origin o -> happens i o p -> happens j o q -> p = q.
End World.
(** tracing never stops at a loop variable that is not invariant *)
Definition no_pointer_loop_variables (G : graph) : Prop := forall o x y, kind_of G (norm G o) <> ThetaPre x y.

(** What is used of traceOutput (C48-C50): it ends at an output that does not pass on the value of another one in an obvious way. And of the graph. *)
Definition stops (G : graph) (o : nat) : Prop :=
  match kind_of G o with GammaArg _ | Barrier _ | Through _ => False | ThetaOut pre post => post <> pre | ThetaPre _ post => post <> o | _ => True end.
(** the origin x of an operand of the node that defines o, and the user of x *)
Definition used_by (G : graph) (o x : nat) : Prop :=
  match kind_of G o with
  | Gep b _ => x = b /\ UGep o ∈ uses G x
  | Select a b => (x = a \/ x = b) /\ USelect o ∈ uses G x
  | GammaOut rs => x ∈ rs /\ UGammaRes o ∈ uses G x
  | ThetaOut pre post => x = post /\ UThetaRes pre o ∈ uses G x
  | ThetaPre input post => (x = input /\ UThetaIn o ∈ uses G x) \/ (x = post /\ exists out, UThetaRes o out ∈ uses G x)
  | GammaArg y => x = y /\ exists l, o ∈ l /\ UGammaIn l ∈ uses G x
  | Barrier y => x = y /\ UBarrier o ∈ uses G x
  | Through y => x = y /\ UOther ∈ uses G x
  | _ => False
  end.
Definition operand (G : graph) (o x : nat) : Prop :=
  match kind_of G o with
  | Gep b _ => x = b
  | Select a b => x = a \/ x = b
  | GammaOut rs => x ∈ rs
  | ThetaOut _ post => x = post
  | ThetaPre input post => x = input \/ x = post
  | GammaArg y | Barrier y | Through y => x = y
  | _ => False
  end.
Record wf (G : graph) : Prop := {
  wf_norm : forall o, stops G (norm G o);
  wf_rank : forall o, (rank G (norm G o) <= rank G o)%nat;
  wf_gep : forall o b c, kind_of G o = Gep b c -> (rank G b < rank G o)%nat;
  wf_uses : forall o x, operand G o x -> used_by G o x;
  wf_outs : forall o, is_alloca G o = true -> o ∈ outs G;
  wf_targets : forall o u l x, u ∈ uses G o -> user_targets u = Some l -> x ∈ l -> x ∈ outs G }.
