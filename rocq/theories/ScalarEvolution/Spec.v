(** Specification of scalar evolution: what an SCEV says about the value of an
    output, independently of how the analysis computes it. *)
From Coq Require Import ZArith List Bool Lia.
From stdpp Require Import tactics base list gmap.
From Verif.ScalarEvolution Require Import Model.
Local Open Scope Z_scope.

(** Equality of values of [w] bits. *)
Definition eqw (w : nat) (a b : Z) : Prop := exists k, a = b + k * 2 ^ Z.of_nat w.

(** The sum of the first [n] values of a sequence. *)
Fixpoint sum_upto (f : nat -> Z) (n : nat) : Z :=
  match n with O => 0 | S n => sum_upto f n + f n end.

(** The textbook meaning of the chain recurrence {a,+,b,+,c,...} in iteration
    [i]: it starts with [a], and from one iteration to the next it is
    incremented by the value of {b,+,c,...}. *)
Fixpoint crval (vs : list Z) (i : nat) : Z :=
  match vs with
  | [] => 0
  | a :: vs => a + sum_upto (crval vs) i
  end.

Definition sum (vs : list Z) : Z := fold_right Z.add 0 vs.
Definition prod (vs : list Z) : Z := fold_right Z.mul 1 vs.

(** A point of an execution: how many iterations each loop has completed, the
    values with which loop variables were initialised, and the values the loop
    variables have now. *)
Record point := Point { iteration : nat -> nat; initial : nat -> Z; current : nat -> Z }.

(** [denotes w pt s v]: in [pt], [v] is a possible value, of [w] bits, of an
    output described by [s].  An unknown term says nothing. *)
Inductive denotes (w : nat) (pt : point) : scev -> Z -> Prop :=
| D_unknown v : denotes w pt Unknown v
| D_init o v : eqw w v (initial pt o) -> denotes w pt (Init o) v
| D_placeholder o v : eqw w v (current pt o) -> denotes w pt (Placeholder o) v
| D_const c v : eqw w v c -> denotes w pt (Const c) v
| D_add l r vl vr v : denotes w pt l vl -> denotes w pt r vr -> eqw w v (vl + vr) ->
    denotes w pt (AddE l r) v
| D_mul l r vl vr v : denotes w pt l vl -> denotes w pt r vr -> eqw w v (vl * vr) ->
    denotes w pt (MulE l r) v
| D_chrec l o ops vs v : Forall2 (denotes w pt) ops vs -> eqw w v (crval vs (iteration pt l)) ->
    denotes w pt (Chrec l o ops) v
| D_nadd ops vs v : Forall2 (denotes w pt) ops vs -> eqw w v (sum vs) -> denotes w pt (NAdd ops) v
| D_nmul ops vs v : Forall2 (denotes w pt) ops vs -> eqw w v (prod vs) -> denotes w pt (NMul ops) v.

(** The terms the algebra works on: no trees, and no empty recurrence. *)
Fixpoint algebraic (s : scev) : Prop :=
  match s with
  | Unknown | Init _ | Const _ => True
  | Placeholder _ | AddE _ _ | MulE _ _ => False
  | Chrec _ _ ops => ops <> [] /\ fold_right and True (map algebraic ops)
  | NAdd ops | NMul ops => fold_right and True (map algebraic ops)
  end.

(** No recurrence has a recurrence as its last increment. *)
Definition is_chrec (s : scev) : bool := match s with Chrec _ _ _ => true | _ => false end.
Fixpoint scalar_steps (s : scev) : Prop :=
  match s with
  | Chrec _ _ ops =>
      match last ops with
      | Some o => is_chrec o = true -> length ops = 1%nat
      | None => True
      end /\ fold_right and True (map scalar_steps ops)
  | NAdd ops | NMul ops => fold_right and True (map scalar_steps ops)
  | AddE l r | MulE l r => scalar_steps l /\ scalar_steps r
  | _ => True
  end.

(** A term without unknown parts. *)
Fixpoint known (s : scev) : Prop :=
  match s with
  | Unknown => False
  | Init _ | Const _ | Placeholder _ => True
  | AddE l r | MulE l r => known l /\ known r
  | Chrec _ _ ops | NAdd ops | NMul ops => fold_right and True (map known ops)
  end.

(** A term without recurrences: its value is the same in all iterations. *)
Fixpoint invariant (s : scev) : Prop :=
  match s with
  | Chrec _ _ _ | Placeholder _ => False
  | AddE l r | MulE l r => invariant l /\ invariant r
  | NAdd ops | NMul ops => fold_right and True (map invariant ops)
  | _ => True
  end.

(** [x] occurs in a tree. *)
Fixpoint mentions (x : nat) (t : scev) : Prop :=
  match t with
  | Placeholder p => p = x
  | AddE l r | MulE l r => mentions x l \/ mentions x r
  | _ => False
  end.
(** A tree of the form x + e, where [e] does not depend on [x]. *)
Fixpoint increment_of (x : nat) (t : scev) : Prop :=
  match t with
  | Placeholder p => p = x
  | AddE l r => (increment_of x l /\ ~ mentions x r) \/ (~ mentions x l /\ increment_of x r)
  | _ => False
  end.

(** An execution of a loop: [it] gives the iterations of the other loops, [ini]
    the values with which loop variables start, and [val x i] the value of output
    [x] in iteration [i]. *)
Definition point_at (loop : nat) (it : nat -> nat) (ini : nat -> Z) (val : nat -> nat -> Z) (i : nat) : point :=
  Point (fun l => if decide (l = loop) then i else it l) ini (fun x => val x i).
(** The execution follows [e]: a loop variable starts with its start value and
    is set to the value of its tree at the end of each iteration; any other
    output has the value of its tree in each iteration. *)
Definition follows (w loop : nat) it ini val (e : evolution) : Prop :=
  match ev_start e with
  | Some start =>
      eqw w (val (ev_output e) 0%nat) (match start with Some c => c | None => ini (ev_output e) end) /\
      forall i, denotes w (point_at loop it ini val i) (ev_tree e) (val (ev_output e) (S i))
  | None => forall i, denotes w (point_at loop it ini val i) (ev_tree e) (val (ev_output e) i)
  end.

(** The value of an expression of [w] bits; [None] if it is not defined. *)
Fixpoint eval (w : nat) (e : expr) (env : nat -> Z) : option Z :=
  let m := 2 ^ Z.of_nat w in
  let bin f l r := match eval w l env, eval w r env with
                   | Some a, Some b => f a b | _, _ => None end in
  match e with
  | EVar p => Some (env p mod m)
  | EConst c => Some (c mod m)
  | EAdd l r => bin (fun a b => Some ((a + b) mod m)) l r
  | ESub l r => bin (fun a b => Some ((a - b) mod m)) l r
  | EMul l r => bin (fun a b => Some ((a * b) mod m)) l r
  | EShl l r => bin (fun a b => if b <? Z.of_nat w then Some ((a * 2 ^ b) mod m) else None) l r
  | EExt signed n e =>
      match eval n e env with
      | Some a => Some ((if (signed : bool) && (2 ^ (Z.of_nat n - 1) <=? a) then a - 2 ^ Z.of_nat n else a) mod m)
      | None => None
      end
  | EBarrier e => eval w e env
  | EOther => None
  end.
Fixpoint no_extension (e : expr) : Prop :=
  match e with
  | EExt _ _ _ => False
  | EAdd l r | ESub l r | EMul l r | EShl l r => no_extension l /\ no_extension r
  | EBarrier e => no_extension e
  | _ => True
  end.
(** Constants are written with their sign, as values of [w] bits. *)
Fixpoint literals (w : nat) (e : expr) : Prop :=
  match e with
  | EConst c => - 2 ^ (Z.of_nat w - 1) <= c < 2 ^ (Z.of_nat w - 1)
  | EAdd l r | ESub l r | EMul l r | EShl l r => literals w l /\ literals w r
  | EBarrier e => literals w e
  | EExt _ n e => literals n e
  | _ => True
  end.

(** A tree over constants and the loop variables in [P]. *)
Fixpoint over (P : nat -> Prop) (t : scev) : Prop :=
  match t with
  | Const _ => True
  | Placeholder p => P p
  | AddE l r | MulE l r => over P l /\ over P r
  | _ => False
  end.
(** Every output depends only on outputs that come before it, and a loop
    variable moreover on itself, exactly once, by addition. *)
Fixpoint in_order (before : list nat) (order : list evolution) : Prop :=
  match order with
  | [] => True
  | e :: order =>
      over (fun p => p = ev_output e \/ In p before) (ev_tree e) /\
      (match ev_start e with
       | Some _ => increment_of (ev_output e) (ev_tree e)
       | None => ~ mentions (ev_output e) (ev_tree e) end) /\
      in_order (ev_output e :: before) order
  end.

(** The operands the analysis of a loop creates: constants and initial values of
    loop variables, their sums and products, and unknown ones. *)
Fixpoint flat (s : scev) : Prop :=
  match s with
  | Unknown | Init _ | Const _ => True
  | NAdd ops => ops <> [] /\ fold_right and True (map flat ops)
  | NMul ops => fold_right and True (map flat ops)
  | _ => False
  end.
(** Such operands, and recurrences of the loop [L] over them. *)
Definition term L (s : scev) : Prop :=
  flat s \/ exists o ops, s = Chrec L o ops /\ ops <> [] /\ Forall flat ops.

(** [x] occurs exactly once in a tree and is the operand of an addition, or is
    the tree: the self-dependencies the analysis accepts. *)
Fixpoint occurrences (x : nat) (t : scev) : nat :=
  match t with
  | Placeholder p => if decide (p = x) then 1 else 0
  | AddE l r | MulE l r => occurrences x l + occurrences x r
  | _ => 0
  end.
(** No placeholder in a term. *)
Fixpoint closed (s : scev) : Prop :=
  match s with
  | Placeholder _ => False
  | AddE l r | MulE l r => closed l /\ closed r
  | Chrec _ _ ops | NAdd ops | NMul ops => fold_right and True (map closed ops)
  | _ => True
  end.
(** No binary tree in a term. *)
Fixpoint treeless (s : scev) : Prop :=
  match s with
  | AddE _ _ | MulE _ _ => False
  | Chrec _ _ ops | NAdd ops | NMul ops => fold_right and True (map treeless ops)
  | _ => True
  end.
