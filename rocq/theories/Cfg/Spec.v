(** What a control flow graph means, and when it is valid. *)
From stdpp Require Import base list list_numbers fin_sets gmap fin_maps relations.
From Verif.Construct Require Import Model Spec.
From Verif.Cfg Require Import Model.

(** the phis at the beginning of a block and what follows them *)
Fixpoint split_phis (l : list instr) : list (nat * list (nat * nat)) * list instr :=
  match l with
  | Phi r ops :: l => let '(ps, rest) := split_phis l in ((r, ops) :: ps, rest)
  | _ => ([], l)
  end.
(** plain instructions; [None]: there is a phi among them *)
Definition plain (l : list instr) : option (list tac) := mapM (fun i => match i with Tac x => Some x | Phi _ _ => None end) l.
(** the operand of a phi for an incoming node *)
Definition operand (p : nat) (ops : list (nat * nat)) : option nat := snd <$> head (filter (fun q => q.1 = p) ops).

Section Runs.
  Context {V : Type} (ctl : V -> option nat) (sem : nat -> list V -> option (list V)) (truth : V -> bool).
  Notation store := (nat -> V).
  (** the instructions of a block that is entered from the node prev: the phis all at once, then the others one after another *)
  Definition exec_code (prev : nat) (l : list instr) (σ σ' : store) : Prop :=
    exists vs ts, mapM (fun p => operand prev p.2) (split_phis l).1 = Some vs /\ plain (split_phis l).2 = Some ts /\
      exec_block sem truth ts (upd_all (fst <$> (split_phis l).1) (map σ vs) σ) σ'.
  (** the edge that is taken at the end of a block *)
  Definition goes (b : block) (σ : store) (m : nat) : Prop :=
    match succ b with
    | [s] => m = s
    | ss => exists p i, last (code b) = Some (Tac (BranchOn p)) /\ ctl (σ p) = Some i /\ ss !! i = Some m
    end.
  (** control is at the node n, coming from prev, with the store σ; it arrives at the exit with σ' *)
  Inductive runs (g : cfg) : nat -> nat -> store -> store -> Prop :=
    | runs_exit prev σ : runs g prev exit σ σ
    | runs_block prev n b σ σ1 m σ' :
        blocks g !! n = Some b -> exec_code prev (code b) σ σ1 -> goes b σ1 m -> runs g n m σ1 σ' -> runs g prev n σ σ'.
  (** running the graph *)
  Definition executes (g : cfg) (σ σ' : store) : Prop := runs g entry (start g) σ σ'.
End Runs.

(** n -> m is an edge *)
Definition edge (g : cfg) (n m : nat) : Prop := (n = entry /\ m = start g) \/ exists b, blocks g !! n = Some b /\ m ∈ succ b.
(** Valid graphs: entry and exit are no basic blocks; every edge leads to a basic block or the exit; every basic block has a successor, one with several
    ends with a branch instruction; phis are at the beginning of their block and have exactly one operand for each predecessor *)
Definition valid_phis (g : cfg) (n : nat) (b : block) : Prop :=
  (exists ts, plain (split_phis (code b)).2 = Some ts) /\
  forall r ops, (r, ops) ∈ (split_phis (code b)).1 -> NoDup (fst <$> ops) /\ forall p, p ∈ fst <$> ops <-> edge g p n.
Record valid (g : cfg) : Prop := Valid {
  valid_ends : blocks g !! entry = None /\ blocks g !! exit = None;
  valid_edges : forall n m, edge g n m -> m = exit \/ is_Some (blocks g !! m);
  valid_blocks : forall n b, blocks g !! n = Some b ->
    succ b <> [] /\ (length (succ b) <> 1 -> exists p, last (code b) = Some (Tac (BranchOn p))) /\ valid_phis g n b
}.
Definition no_phis (g : cfg) : Prop := forall n b, blocks g !! n = Some b -> Forall (fun i => exists x, i = Tac x) (code b).
(** there is a path from the entry *)
Definition reachable (g : cfg) (n : nat) : Prop := rtc (edge g) entry n.
(** every basic block has a predecessor *)
Definition closed (g : cfg) : Prop := forall n, is_Some (blocks g !! n) -> exists p, edge g p n.

(** the variables an instruction mentions *)
Definition instr_vars (i : instr) : list nat := match i with Phi r ops => r :: (snd <$> ops) | Tac x => tac_reads x ++ tac_writes x end.
(** the node numbers from s on and the variables from v on are not used *)
Record unused (g : cfg) (s v : nat) : Prop := Unused {
  unused_ends : exit < s;
  unused_nodes : forall n, is_Some (blocks g !! n) -> n < s;
  unused_vars : forall n b i x, blocks g !! n = Some b -> i ∈ code b -> x ∈ instr_vars i -> x < v
}.
(** the results of phis *)
Definition phi_result (g : cfg) (r : nat) : Prop := exists n b ops, blocks g !! n = Some b /\ (r, ops) ∈ (split_phis (code b)).1.
(** n's only edge leads to the basic block s, which has no phis and no other in-edge *)
Definition linear_pair (g : cfg) (n s : nat) : Prop :=
  exists b c, blocks g !! n = Some b /\ succ b = [s] /\ (forall p, edge g p s -> p = n) /\ blocks g !! s = Some c /\ forall r ops l, code c <> Phi r ops :: l.
