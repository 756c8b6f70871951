(** What a solution of a set of inclusion constraints is, independently of any
    solver. Everything is said in terms of what the API lets a user observe:
    IsPointingTo, IsPointingToExternal, HasEscaped, HasPointeesEscaping. *)
From stdpp Require Import base list gmap.
From Verif.Andersen Require Import Model.

(** an assignment of points-to sets and flags to all pointer objects *)
Record assignment := mkassignment {
  Sol : nat -> nat -> Prop;     (* Sol x y: x may point to y *)
  Ext : nat -> Prop;            (* x may point to memory outside the module *)
  Esc : nat -> Prop;            (* the address of x is known outside the module *)
  Pe : nat -> Prop }.           (* everything x points to escapes *)

(** everything [b] may point to, [a] may point to *)
Definition includes (T : assignment) (a b : nat) : Prop :=
  (forall y, Sol T b y -> Sol T a y) /\ (Ext T b -> Ext T a).

(** call node [c] may call a function outside the module *)
Definition external_call (G : prog) (T : assignment) (c : nat) : Prop :=
  (forall i, Some i ∈ cargs G c -> Pe T i) /\ (forall i, Some i ∈ couts G c -> Ext T i).
(** call node [c] may call function [f] of this module *)
Definition internal_call (G : prog) (T : assignment) (c f : nat) : Prop :=
  (forall k i j, cargs G c !! k = Some (Some i) -> fargs G f !! k = Some (Some j) -> includes T j i) /\
  (forall k i j, couts G c !! k = Some (Some i) -> fresults G f !! k = Some (Some j) -> includes T i j).

(** the meaning of one constraint *)
Definition meaning (G : prog) (kd : nat -> kind) (T : assignment) (c : cstr) : Prop :=
  match c with
  | CSuper a b => includes T a b
  | CStore p v => (forall x, Sol T p x -> includes T x v) /\ (Ext T p -> Pe T v)
  | CLoad v p => (forall x, Sol T p x -> includes T v x) /\ (Ext T p -> Ext T v)
  | CCall p c =>
    (forall f, Sol T p f -> kd f = ImportMO -> external_call G T c) /\
    (forall f, Sol T p f -> kd f = FunctionMO -> internal_call G T c f) /\
    (Ext T p -> external_call G T c)
  end.

(** the rules about memory outside the module, that hold whatever the constraints are *)
Record escape_rules (n : nat) (G : prog) (T : assignment) : Prop := {
  pointees_escape : forall x y, x < n -> Pe T x -> Sol T x y -> Esc T y;
  escaped_is_accessible : forall y, Esc T y -> Pe T y /\ Ext T y;
  external_points_to_escaped : forall x y, x < n -> Ext T x -> Esc T y -> Sol T x y;
  escaped_function_params : forall f i, f ∈ functions G -> Esc T f -> Some i ∈ fargs G f -> Ext T i;
  escaped_function_results : forall f i, f ∈ functions G -> Esc T f -> Some i ∈ fresults G f -> Pe T i }.

(** what the user sees of a PointerObjectSet *)
Definition observe (s : pos) : assignment :=
  mkassignment (fun x y => is_pointing_to s x y = true) (fun x => is_ext s x = true)
               (fun y => has_escaped s y = true) (fun x => has_pe s x = true).

(** [T] is at most [U] on the pointer objects below [n] *)
Record at_most (n : nat) (T U : assignment) : Prop := {
  am_sol : forall x y, x < n -> Sol T x y -> Sol U x y;
  am_ext : forall x, x < n -> Ext T x -> Ext U x;
  am_esc : forall x, x < n -> Esc T x -> Esc U x;
  am_pe : forall x, x < n -> Pe T x -> Pe U x }.

(** [T] solves the constraints [cs] for a module whose pointer objects are given by [s] *)
Record solution (G : prog) (s : pos) (cs : list cstr) (T : assignment) : Prop := {
  (* it contains everything already recorded in s *)
  so_init : at_most (npo s) (observe s) T;
  (* unified pointer objects share their points-to set *)
  so_unified : forall x y, x < npo s -> y < npo s -> root s x = root s y ->
    (forall z, Sol T x z <-> Sol T y z) /\ (Ext T x <-> Ext T y) /\ (Pe T x <-> Pe T y);
  so_constraints : forall c, c ∈ cs -> meaning G (kindof s) T c;
  so_rules : escape_rules (npo s) G T;
  (* objects written and read through as scalars *)
  so_stored : forall x y, x < npo s -> is_sas s x = true -> Sol T x y -> Ext T y;
  so_loaded : forall x y, x < npo s -> is_las s x = true -> Sol T x y -> Pe T y }.

(** the least solution *)
Definition least_solution (G : prog) (s : pos) (cs : list cstr) (T : assignment) : Prop :=
  solution G s cs T /\ forall U, solution G s cs U -> at_most (npo s) T U.

(** the same Sol sets, external flags and escaped objects *)
Definition same_sol (n : nat) (T U : assignment) : Prop :=
  forall x, x < n -> (Esc T x <-> Esc U x) /\ (Ext T x <-> Ext U x) /\ (forall y, y < n -> Sol T x y <-> Sol U x y).

(** The invariant of PointerObjectSet: what every sequence of API calls
    establishes (see the lemmas [wf_*] in Proofs.v) *)
Record wf (s : pos) : Prop := {
  wf_par : forall i, i < npo s -> par s i < npo s /\ (par s i = i \/ rank s i < rank s (par s i));
  wf_flags : forall i, i ∈ fesc s \/ i ∈ fpe s \/ i ∈ fext s \/ i ∈ fsas s \/ i ∈ flas s -> i < npo s;
  wf_pts_dom : forall i y, y ∈ pts s i -> i < npo s;
  (* nothing points to a register, registers do not escape (the JLM_ASSERTs) *)
  wf_pts : forall i y, y ∈ pts s i -> y < npo s /\ kindof s y <> Register;
  wf_esc : forall y, y ∈ fesc s -> kindof s y <> Register;
  (* HasEscaped implies PointeesEscaping and PointsToExternal *)
  wf_esc_pe : forall y, y ∈ fesc s -> root s y ∈ fpe s;
  wf_esc_ext : forall y, y ∈ fesc s -> root s y ∈ fext s }.

(** all pointer objects mentioned by the constraints and by the module exist *)
Definition cstr_in (n : nat) (c : cstr) : Prop :=
  match c with CSuper a b | CStore a b | CLoad a b => a < n /\ b < n | CCall p _ => p < n end.
Record wf_prog (n : nat) (kd : nat -> kind) (G : prog) : Prop := {
  wg_fargs : forall f i, Some i ∈ fargs G f -> i < n;
  wg_fresults : forall f i, Some i ∈ fresults G f -> i < n;
  wg_cargs : forall c i, Some i ∈ cargs G c -> i < n;
  wg_couts : forall c i, Some i ∈ couts G c -> i < n;
  (* every function memory object has its lambda node in FunctionMap_ *)
  wg_functions : forall f, f < n -> kd f = FunctionMO <-> f ∈ functions G;
  wg_functions_in : forall f, f ∈ functions G -> f < n }.

(** ** the loops of ApplyDirectly over the pointees of the constraint's pointer *)
(** the pointer whose points-to set the loop iterates over *)
Definition iterated (c : cstr) : option nat :=
  match c with CSuper _ _ => None | CStore p _ | CLoad _ p | CCall p _ => Some p end.
(** the pointer objects whose points-to sets the iteration for pointee [x] may add to *)
Definition written (G : prog) (kd : nat -> kind) (c : cstr) (x : nat) : list nat :=
  match c with
  | CSuper _ _ => []
  | CStore _ _ => [x]
  | CLoad v _ => [v]
  | CCall _ n => match kd x with FunctionMO => omap id (fargs G x) ++ omap id (couts G n) | _ => [] end
  end.
