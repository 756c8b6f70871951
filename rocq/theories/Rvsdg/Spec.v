(** What an RVSDG computes.
    Every output has a defining equation, its [view]; the value of an output is the least relation
    that satisfies all the equations. *)
From stdpp Require Import base list list_numbers fin_sets gmap.
From Verif.Rvsdg Require Import Model.

Inductive view :=
  | VSimple (id : nat) (load : bool) (op : nat) (k : nat) (ins : list oid)    (* output k of a simple node *)
  (* an exit variable: the predicate, and per branch the result, the match content argument, the entry variables (argument, origin) *)
  | VGamma (p : oid) (brs : list (oid * oid * list (oid * oid)))
  | VGammaArg (e : oid)                       (* argument of a branch: the origin of the entry variable *)
  (* a loop variable after the loop: the loop predicate, its post value, its initial value, all loop variables (pre, initial, post) *)
  | VTheta (pred post inp : oid) (lvs : list (oid * oid * oid))
  | VThetaArg (out inp : oid)                 (* a loop variable in the loop *)
  | VLambda (id : nat) (fargs res : list oid) (* a function: its arguments and results *)
  | VFunArg                                   (* a function argument *)
  | VDelta (id : nat) (res : list oid)        (* a global variable *)
  | VCopy (x : oid)                           (* context variables; fixpoint variables of phi nodes *)
  | VImport (id : nat).                       (* import of the module; it is named by its argument *)

(** the views of the outputs, read off the structure *)
Definition gamma_branch (ins : list oid) (k : nat) (r : region) : oid * oid * list (oid * oid) :=
  (nth k (rres r) 0, nth 0 (rargs r) 0, zip (tail (rargs r)) (tail ins)).
Definition loop_vars (ins : list oid) (r : region) : list (oid * oid * oid) :=
  zip (zip (rargs r) ins) (tail (rres r)).
Definition out_view (id : nat) (k : kind) (ins outs : list oid) (subs : list region) (i : nat) : view :=
  let r := nth 0 subs (Region [] [] []) in
  match k with
  | Simple op => VSimple id false op i ins
  | Load op => VSimple id true op i ins
  | Gamma => VGamma (nth 0 ins 0) (gamma_branch ins i <$> subs)
  | Theta => VTheta (nth 0 (rres r) 0) (nth (S i) (rres r) 0) (nth i ins 0) (loop_vars ins r)
  | Lambda n => VLambda id (take n (rargs r)) (rres r)
  | Delta => VDelta id (rres r)
  | Phi => VCopy (nth i (rres r) 0)
  end.
Definition arg_view (k : kind) (ins outs : list oid) (r : region) (i : nat) : view :=
  match k with
  | Gamma => VGammaArg (nth i ins 0)
  | Theta => VThetaArg (nth i outs 0) (nth i ins 0)
  | Lambda n => if decide (i < n) then VFunArg else VCopy (nth (i - n) ins 0)
  | Phi => if decide (i < length (rres r)) then VCopy (nth i (rres r) 0) else VCopy (nth (i - length (rres r)) ins 0)
  | _ => VCopy (nth i ins 0)
  end.
Definition index {A B} (f : nat -> B) (l : list A) : list (A * B) := imap (fun i a => (a, f i)) l.
Fixpoint ndefs (n : node) : list (oid * view) :=
  let 'Node id k ins outs subs := n in
  index (out_view id k ins outs subs) outs ++
  mjoin (map (fun r => index (arg_view k ins outs r) (rargs r) ++ rdefs r) subs)
with rdefs (r : region) : list (oid * view) :=
  let 'Region args res ns := r in mjoin (map ndefs ns).
(** the module: the root region, whose arguments are the imports *)
Definition defs (t : region) : list (oid * view) := map (fun a => (a, VImport a)) (rargs t) ++ rdefs t.

Section Eval.
  (** values, the alternative a control value selects, the content it carries into the branch, the
      meaning of the operations, the addresses of functions, globals and imports *)
  Context {V : Type} (ctl : V -> option nat) (content : V -> V) (sem : nat -> list V -> option (list V)) (addr imp : nat -> V).

  Definition env := nat -> option V.
  Definition emp : env := fun _ => None.
  (** binding arguments to values *)
  Definition bind (l : list (oid * V)) : env := fun a => (list_to_map l : gmap nat V) !! a.

  (** the loop: the values of the loop variables before an iteration, the value of the post result when it ends *)
  Inductive loop (R : env -> oid -> V -> Prop) (pred post : oid) (lvs : list (oid * oid * oid)) : list V -> V -> Prop :=
    | loop_exit vs pv v : R (bind (zip lvs.*1.*1 vs)) pred pv -> ctl pv = Some 0 ->
        R (bind (zip lvs.*1.*1 vs)) post v -> loop R pred post lvs vs v
    | loop_next vs pv vs' v : R (bind (zip lvs.*1.*1 vs)) pred pv -> ctl pv = Some 1 ->
        Forall2 (R (bind (zip lvs.*1.*1 vs))) lvs.*2 vs' -> loop R pred post lvs vs' v -> loop R pred post lvs vs v.

  (** one equation, given the values of what it refers to *)
  Definition eqn (R : env -> oid -> V -> Prop) (e : env) (o : oid) (w : view) (v : V) : Prop :=
    match w with
    | VSimple _ _ op k ins => exists vs ws, Forall2 (R e) ins vs /\ sem op vs = Some ws /\ ws !! k = Some v
    | VGamma p brs => exists pv b x c es vs, R e p pv /\ ctl pv = Some b /\ brs !! b = Some (x, c, es) /\
        Forall2 (R e) es.*2 vs /\ R (bind ((c, content pv) :: zip es.*1 vs)) x v
    | VTheta pred post _ lvs => exists vs, Forall2 (R e) lvs.*1.*2 vs /\ loop R pred post lvs vs v
    | VGammaArg _ | VThetaArg _ _ | VFunArg => e o = Some v
    | VLambda id _ _ | VDelta id _ => v = addr id
    | VImport id => v = imp id
    | VCopy x => R emp x v
    end.
  Definition step (t : region) (R : env -> oid -> V -> Prop) (e : env) (o : oid) (v : V) : Prop :=
    exists w, (o, w) ∈ defs t /\ eqn R e o w v.
  (** the least solution: output o has the value v in the module t, when the arguments in scope have the values e *)
  Definition ev (t : region) (e : env) (o : oid) (v : V) : Prop :=
    forall R : env -> oid -> V -> Prop, (forall e o v, step t R e o v -> R e o v) -> R e o v.
End Eval.
