(** Executions of a region tree, and what the reachability check of a
    predicate trace promises. *)
From stdpp Require Import base list gmap numbers.
From Verif.PredTrace Require Import Model.

Section Graph.
  Context (g : graph).

  (** The inputs the value of input i may come from, one step up. *)
  Inductive source (i : nat) : nat -> Prop :=
    | source_gamma rs res : odefn g (origin g i) = OGammaOut rs -> res ∈ rs -> source i res
    | source_entry inp : odefn g (origin g i) = OEntry inp -> source i inp
    | source_theta inp post pre : odefn g (origin g i) = OThetaOut inp post pre -> origin g post <> pre -> source i post
    | source_invariant inp post pre : odefn g (origin g i) = OThetaOut inp post pre -> origin g post = pre -> source i inp
    | source_pre inp post : odefn g (origin g i) = OThetaPre inp post -> origin g post = origin g i -> source i inp.

  (** Well-formed graphs: the results of a gamma lie in regions directly below
      the gamma's region, the entry inputs directly above, predicates are
      inputs of the region around the gamma, control types agree along edges,
      and the definitions are acyclic. *)
  Record wf : Prop := {
    wf_gamma i rs res : odefn g (origin g i) = OGammaOut rs -> res ∈ rs ->
      istruct g res = true /\ exists pred index, rpar g (iregion g res) = RGamma (iregion g i) pred index;
    wf_entry i inp : odefn g (origin g i) = OEntry inp -> exists pred index, rpar g (iregion g i) = RGamma (iregion g inp) pred index;
    wf_theta i inp post pre : odefn g (origin g i) = OThetaOut inp post pre ->
      iregion g inp = iregion g i /\ odefn g pre = OThetaPre inp post /\ istruct g post = true /\ rpar g (iregion g post) = ROther (iregion g i);
    wf_pre i inp post : odefn g (origin g i) = OThetaPre inp post -> rpar g (iregion g i) = ROther (iregion g inp);
    wf_pred r outer pred index : rpar g r = RGamma outer pred index -> iregion g pred = outer /\ exists n, ity g pred = Some n /\ index < n;
    wf_type i j n : ity g i = Some n -> source i j -> ity g j = Some n;
    wf_const i alt nalts : odefn g (origin g i) = OConst alt nalts -> alt < nalts /\ ity g i = Some nalts
  }.
  Definition acyclic : Prop :=
    (exists rank : nat -> nat, forall i j, source i j -> rank j < rank i) /\
    (exists depth : nat -> nat, forall r, match rpar g r with RTop => True | RGamma outer _ _ | ROther outer => depth outer < depth r end).

  (** One activation of every region that is entered: the values of the
      outputs and the set of entered regions.  A gamma runs the branch its
      predicate selects; of a theta it is one iteration (the last one, for the
      outputs of the theta). *)
  Record execution (val : nat -> nat) (entered : nat -> Prop) : Prop := {
    ex_gamma_region r outer pred index : rpar g r = RGamma outer pred index -> entered r -> entered outer /\ val (origin g pred) = index;
    ex_other_region r outer : rpar g r = ROther outer -> entered r -> entered outer;
    ex_type i n : entered (iregion g i) -> ity g i = Some n -> val (origin g i) < n;
    ex_const i alt nalts : entered (iregion g i) -> odefn g (origin g i) = OConst alt nalts -> val (origin g i) = alt;
    ex_gamma i rs : entered (iregion g i) -> odefn g (origin g i) = OGammaOut rs ->
      exists res, res ∈ rs /\ entered (iregion g res) /\ val (origin g i) = val (origin g res) /\
        forall res', res' ∈ rs -> entered (iregion g res') -> res' = res;
    ex_entry i inp : entered (iregion g i) -> odefn g (origin g i) = OEntry inp -> val (origin g i) = val (origin g inp);
    ex_theta i inp post pre : entered (iregion g i) -> odefn g (origin g i) = OThetaOut inp post pre ->
      entered (iregion g post) /\ val (origin g i) = val (origin g post);
    ex_invariant i inp post : entered (iregion g i) -> odefn g (origin g i) = OThetaPre inp post -> origin g post = origin g i ->
      val (origin g i) = val (origin g inp)
  }.

  (** pred must take value v for target to be entered *)
  Inductive guards (target : nat) : nat -> nat -> Prop :=
    | guards_here outer pred v : rpar g target = RGamma outer pred v -> guards target pred v
    | guards_gamma outer p w pred v : rpar g target = RGamma outer p w -> guards outer pred v -> guards target pred v
    | guards_other outer pred v : rpar g target = ROther outer -> guards outer pred v -> guards target pred v.

  (** the definition tree of i has a result of region r *)
  Inductive on_trace (r : nat) : nat -> Prop :=
    | on_here i : istruct g i = true -> iregion g i = r -> on_trace r i
    | on_step i j : source i j -> on_trace r j -> on_trace r i.

  (** the definition tree of i reaches a result of region r by going down
      into gammas and loops, and out of none of them *)
  Inductive down_to (r : nat) : nat -> Prop :=
    | down_here i : istruct g i = true -> iregion g i = r -> down_to r i
    | down_gamma i rs res : odefn g (origin g i) = OGammaOut rs -> res ∈ rs -> down_to r res -> down_to r i
    | down_theta i inp post pre : odefn g (origin g i) = OThetaOut inp post pre -> origin g post <> pre -> down_to r post -> down_to r i
    | down_invariant i inp post pre : odefn g (origin g i) = OThetaOut inp post pre -> origin g post = pre -> down_to r inp -> down_to r i.
  (** ... after leaving some of the regions around i *)
  Inductive out_down_to (r : nat) : nat -> Prop :=
    | od_down i : down_to r i -> out_down_to r i
    | od_entry i inp : odefn g (origin g i) = OEntry inp -> out_down_to r inp -> out_down_to r i
    | od_pre i inp post : odefn g (origin g i) = OThetaPre inp post -> origin g post = origin g i -> out_down_to r inp -> out_down_to r i.
End Graph.

(** The objects that a history of queries on one unchanged graph produces. *)
Inductive queried (g : graph) : tracer -> Prop :=
  | queried_fresh : queried g fresh
  | queried_check fuel org target t b t' : queried g t -> check fuel g org target t = Some (b, t') -> queried g t'
  | queried_assign fuel region use t r t' : queried g t -> get_assign fuel g region use t = Some (r, t') -> queried g t'.

(** The objects that a history of reachability checks and of edge changes
    produces: the graph at the end and the tracer.  The graph is well-formed
    at every check. *)
Inductive history (g0 : graph) : graph -> tracer -> Prop :=
  | history_fresh : history g0 g0 fresh
  | history_check fuel org target g t b t' : history g0 g t -> wf g -> check fuel g org target t = Some (b, t') -> history g0 g t'
  | history_divert i o g t : history g0 g t -> history g0 (divert g i o) (on_input_change (divert g i o) i t).

(** no output is that of a loop variable *)
Definition no_loop_variables (g : graph) : Prop :=
  forall o, match odefn g o with OThetaOut _ _ _ | OThetaPre _ _ => False | _ => True end.
