(* Model of the theta-gamma correlation redirection of
   jlm/llvm/opt/InvariantValueRedirection.cpp. *)
From stdpp Require Import base list.

(* The origin of an input in the region of a theta node: the pre value of a
   loop variable, an output of the correlated gamma node, or an output of
   another node. *)
Inductive origin :=
| Pre (i : nat)
| GammaOut (k : nat)
| Other (o : nat).

(* The origin of a branch result in a subregion of the gamma node: the
   argument of an entry variable, the argument of the match content, or an
   output of a node of the subregion (gamma.hpp MapBranchArgument). *)
Inductive inner :=
| EntryArg (j : nat)
| ContentArg
| Inner (o : nat).

(* The correlated gamma node: the origins of its entry variables, and for each
   of its subregions the origins of the branch results. *)
Record gamma := Gamma { entries : list origin; branches : list (list inner) }.

(* A loop variable: the origin of its post value, whether its output has
   users outside (rvsdg::Output::IsDead), and whether its pre value is used by
   a node of the region, the gamma node among them. *)
Record loop_var := LoopVar { post : origin; out_used : bool; pre_used : bool }.

(* rvsdg::Output::IsDead of the pre value of loop variable i: no node and no
   post result uses it. *)
Definition pre_dead (vars : list loop_var) (i : nat) (v : loop_var) : bool :=
  negb (pre_used v) && forallb (fun w => match post w with Pre j => negb (j =? i) | _ => true end) vars.

(* The lambda divertLoopVar (InvariantValueRedirection.cpp:235-246), with the
   branch result that the callers hand on (269-270, 275-276). *)
Definition divert (g : gamma) (branch k : nat) (v : loop_var) : loop_var :=
  match branches g !! branch with
  | Some results =>
    match results !! k with
    | Some (EntryArg j) =>
      match entries g !! j with
      | Some o => LoopVar o (out_used v) (pre_used v)
      | None => v
      end
    | _ => v
    end
  | None => v
  end.

(* The body of the loop over the loop variables (InvariantValueRedirection.cpp:248-278)
   for variable i; rep and ext are the indices of the roles' repetition and
   exit subregions. *)
Definition redirect_var (g : gamma) (rep ext : nat) (vars : list loop_var) (i : nat) (v : loop_var) : loop_var :=
  if negb (out_used v) && pre_dead vars i v then v
  else
    match post v with
    | GammaOut k =>
      if negb (out_used v) then divert g rep k v
      else if pre_dead vars i v then divert g ext k v
      else v
    | _ => v
    end.

(* The loop over the loop variables; each is visited with the posts of the
   earlier ones already diverted. *)
Fixpoint redirect_from (g : gamma) (rep ext : nat) (i n : nat) (vars : list loop_var) : list loop_var :=
  match n with
  | 0 => vars
  | S n => redirect_from g rep ext (S i) n (alter (redirect_var g rep ext vars i) i vars)
  end.

(* redirectThetaGammaOutputs (InvariantValueRedirection.cpp:216-279), after
   the correlation and the roles have been determined. *)
Definition redirect (g : gamma) (rep ext : nat) (vars : list loop_var) : list loop_var :=
  redirect_from g rep ext 0 (length vars) vars.
