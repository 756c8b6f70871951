(** What the aggregation tree of a function means: an imperative program. *)
From stdpp Require Import base list list_numbers fin_sets gmap.
From Verif.Construct Require Import Model.

(** the variable that decides where a subtree that ends in a basic block continues *)
Fixpoint ends_with (t : tree) : option var :=
  match t with
  | Block l => match last l with Some (BranchOn p) => Some p | _ => None end
  | Linear l => match last (map ends_with l) with Some p => p | None => None end
  | _ => None
  end.

Section Exec.
  (** values, the alternative a control value selects, the meaning of the operations, the truth of a condition *)
  Context {V : Type} (ctl : V -> option nat) (sem : nat -> list V -> option (list V)) (truth : V -> bool).
  Notation store := (nat -> V).
  Definition upd (v : var) (x : V) (σ : store) : store := fun u => if decide (u = v) then x else σ u.
  Definition upd_all (vs : list var) (xs : list V) (σ : store) : store := foldl (fun σ p => upd p.1 p.2 σ) σ (zip vs xs).
  (** one instruction *)
  Definition exec_tac (x : tac) (σ σ' : store) : Prop :=
    match x with
    | Assign l r => σ' = upd l (σ r) σ
    | Select p a b r => σ' = upd r (if truth (σ p) then σ a else σ b) σ
    | BranchOn p => σ' = σ
    | Op op ops res => exists xs, sem op (map σ ops) = Some xs /\ length xs = length res /\ σ' = upd_all res xs σ
    end.
  Fixpoint exec_block (l : list tac) (σ σ' : store) : Prop :=
    match l with [] => σ' = σ | x :: l => exists σ1, exec_tac x σ σ1 /\ exec_block l σ1 σ' end.
  (** the body is repeated as long as p has the control value 1 at its end *)
  Inductive repeat_loop (body : store -> store -> Prop) (p : var) : store -> store -> Prop :=
    | rep_exit σ σ' : body σ σ' -> ctl (σ' p) = Some 0 -> repeat_loop body p σ σ'
    | rep_next σ σ1 σ' : body σ σ1 -> ctl (σ1 p) = Some 1 -> repeat_loop body p σ1 σ' -> repeat_loop body p σ σ'.
  Definition exec_seq (f : option var -> tree -> store -> store -> Prop) : option var -> list tree -> store -> store -> Prop :=
    fix go prev l σ σ' := match l with [] => σ' = σ | t :: l => exists σ1, f prev t σ σ1 /\ go (ends_with t) l σ1 σ' end.
  (** [prev]: the variable on which the basic block before branches *)
  Fixpoint exec (prev : option var) (t : tree) (σ σ' : store) : Prop :=
    match t with
    | Block l => exec_block l σ σ'
    | Linear l => exec_seq exec None l σ σ'
    | Branch l => exists p b, prev = Some p /\ ctl (σ p) = Some b /\ match map (fun c => exec None c) l !! b with Some R => R σ σ' | None => False end
    | Loop b => exists p, ends_with b = Some p /\ repeat_loop (exec None b) p σ σ'
    end.
  (** calling the function: the store in which the body starts and the values of the results *)
  Definition calls (f : function) (σ0 : store) (xs rs : list V) : Prop :=
    length xs = length (fargs f) /\ exists σ', exec_seq exec None (fbody f) (upd_all (fargs f) xs σ0) σ' /\ rs = map σ' (fresults f).
End Exec.

(** The trees that aggregation makes: branches follow a basic block that ends with a branch instruction, and so do the bodies of loops *)
Definition ok_seq (f : option var -> tree -> Prop) : option var -> list tree -> Prop :=
  fix go prev l := match l with [] => True | t :: l => f prev t /\ go (ends_with t) l end.
Fixpoint tree_ok (prev : option var) (t : tree) : Prop :=
  match t with
  | Block l => True
  | Linear l => ok_seq tree_ok None l
  | Branch l => l <> [] /\ (exists p, prev = Some p) /\ fold_right and True (map (tree_ok None) l)
  | Loop b => (exists p, ends_with b = Some p) /\ tree_ok None b
  end.
Definition function_ok (f : function) : Prop := NoDup (fargs f) /\ ok_seq tree_ok None (fbody f).
(** In every linear node: a variable that a child writes in some but not all of its executions is not one that the children after it write in all theirs *)
Definition gap_seq (f : tree -> Prop) : list tree -> Prop :=
  fix go l := match l with
  | [] => True
  | t :: l => (forall v, v ∈ all_writes (tree_sets t) -> v ∉ full_writes (tree_sets t) -> v ∉ full_writes (tree_sets (Linear l))) /\ f t /\ go l
  end.
Fixpoint no_gap (t : tree) : Prop :=
  match t with
  | Block _ => True
  | Linear l => gap_seq no_gap l
  | Branch l => fold_right and True (map no_gap l)
  | Loop b => no_gap b
  end.
