(** Model of ReduceGammaInvariantVariables, jlm/rvsdg/gamma.cpp:45-72, 184-192. *)
From stdpp Require Import base list list_numbers fin_sets gmap.
From Verif.Rvsdg Require Import Model Spec Divert.
From Verif.Ivr Require Import Model.

(** the origin of result k of branch r as an argument of the branch, by index; the input of argument 0, the match content, is null (gamma.cpp:240-243) *)
Definition branch_argument (k : nat) (r : region) : option nat := x ← rres r !! k; position x (rargs r).
(** the outcome for one exit variable: nothing to do, users diverted, null pointer dereferenced *)
Inductive outcome := Skip | Move (z : oid) | Crash.
(** 48-70: the condition [!argument && argument->input() != input] dereferences [argument] exactly when it is null, and does not compare inputs otherwise *)
Definition reduce_exit_var (ins : list oid) (subs : list region) (k : nat) : outcome :=
  match subs with
  | [] => Crash
  | r :: rs =>
      match branch_argument k r with
      | None => Skip
      | Some i => if existsb (fun r' => bool_decide (branch_argument k r' = None)) rs then Crash
                  else match i with 0 => Crash | S _ => match ins !! i with Some z => Move z | None => Crash end end
      end
  end.
(** 45-72 perform_invariant_reduction: the diverts, or [None] *)
Definition reduce_moves (n : node) : option (list (oid * oid)) :=
  let 'Node _ _ ins outs subs := n in
  foldr (fun '(k, o) l => l ← l; match reduce_exit_var ins subs k with Skip => Some l | Move z => Some ((o, z) :: l) | Crash => None end) (Some []) (imap pair outs).
Definition new_origin (l : list (oid * oid)) (x : oid) : oid := default x ((list_to_map l : gmap nat nat) !! x).
(** the module after the reduction of its gamma node n: the users of the exit variables, wherever they are, are diverted. All diverts at once: the
    new origins are origins of n, not its outputs. *)
Definition reduce_gamma (n : node) (t : region) : option region := l ← reduce_moves n; Some (dregion (new_origin l) t).
