(** Executions of a chain of memory operations. *)
From stdpp Require Import base list.
From Verif.LoadChain Require Import Model.

Section Exec.
  Context {mem : Type}.
  (** What the stores, calls and gamma nodes do to memory, and how often a loop
      is executed. *)
  Context (effect : nat -> mem -> mem) (iterations : nat -> mem -> nat).

  (** What a state's nodes do to memory; the parts of merged states are changed
      one after the other. *)
  Fixpoint run (s : state) (m : mem) : mem :=
    match s with
    | Start => m
    | Load _ s => run s m
    | Modify n s => effect n (run s m)
    | Loop n post s => let m' := run s m in Nat.iter (iterations n m') (run post) m'
    | Call n s => effect n (run s m)
    | ExitSplit s => run s m
    | Merge ss => fold_left (fun m s => run s m) ss m
    | Gamma n ss => effect n (fold_left (fun m s => run s m) ss m)
    end.
  (** What the node of a link does. *)
  Definition step (n : node) (m : mem) : mem :=
    match n with
    | NLoad _ => m
    | NModify n => effect n m
    | NLoop n post => Nat.iter (iterations n m) (run post) m
    | NGamma n ss => effect n (fold_left (fun m s => run s m) ss m)
    end.

  (** The chain is executed from its top, the last link: what each link sees,
      and the memory at the end. *)
  Fixpoint exec_chain (ls : list link) (m : mem) : list (node * mem) * mem :=
    match ls with
    | [] => ([], m)
    | l :: ls => let '(seen, m) := exec_chain ls m in ((link_node l, m) :: seen, step (link_node l) m)
    end.

  (** The links of a parallel item all see the same memory; a join is of equal
      states. *)
  Inductive exec_items : list item -> mem -> list (node * mem) -> mem -> Prop :=
    | exec_nil m : exec_items [] m [] m
    | exec_single l is m seen m' : exec_items is m seen m' ->
        exec_items (Single l :: is) m ((link_node l, m') :: seen) (step (link_node l) m')
    | exec_parallel ls is m seen m' m'' : exec_items is m seen m' ->
        ls <> [] -> (forall l, l ∈ ls -> step (link_node l) m' = m'') ->
        exec_items (Parallel ls :: is) m (((fun l => (link_node l, m')) <$> ls) ++ seen) m''.
End Exec.

(** A call is among the nodes of a state. *)
Fixpoint calls (s : state) : bool :=
  match s with
  | Start => false
  | Load _ s => calls s
  | Modify _ s => calls s
  | Loop _ post s => calls post || calls s
  | Call _ _ => true
  | ExitSplit s => calls s
  | Merge ss => existsb calls ss
  | Gamma _ ss => existsb calls ss
  end.
(** No loop of the chain contains a call. *)
Fixpoint loops_without_calls (s : state) : Prop :=
  match s with
  | Load _ s | Modify _ s => loops_without_calls s
  | Loop _ post s => calls post = false /\ loops_without_calls s
  | _ => True
  end.
(** The links in the order of the chain. *)
Definition links_of (is : list item) : list link := mjoin ((fun i => match i with Single l => [l] | Parallel ls => ls end) <$> is).
