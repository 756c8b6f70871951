(** What invariant value redirection is for. *)
From stdpp Require Import base list list_numbers fin_sets gmap.
From Verif.Rvsdg Require Import Model Spec.

(** the regions of functions: the bodies of the lambda nodes of the module (also inside phi nodes), and the regions of the branches and loops in them *)
Inductive fun_region : region -> region -> Prop :=
  | fr_lambda t n k r : n ∈ rnodes t -> nkind n = Lambda k -> r ∈ nsubs n -> fun_region t r
  | fr_phi t n s r : n ∈ rnodes t -> nkind n = Phi -> s ∈ nsubs n -> fun_region s r -> fun_region t r
  | fr_inner t r n s : fun_region t r -> n ∈ rnodes r -> (nkind n = Gamma \/ nkind n = Theta) -> s ∈ nsubs n -> fun_region t s.
(** output o of the loop or branch n is invariant: the post value of the loop variable is its pre value; the result is in every branch the
    argument of the same entry variable *)
Definition invariant_loop_var (n : node) (o : oid) : Prop :=
  nkind n = Theta /\ exists i s a, nouts n !! i = Some o /\ nsubs n = [s] /\ rargs s !! i = Some a /\ rres s !! S i = Some a.
Definition invariant_exit_var (n : node) (o : oid) : Prop :=
  nkind n = Gamma /\ nsubs n <> [] /\ exists k i, nouts n !! k = Some o /\ forall s, s ∈ nsubs n -> exists a, rres s !! k = Some a /\ rargs s !! S i = Some a.
(** nothing uses the output o of a node of region r *)
Definition no_users (o : oid) (r : region) : Prop := o ∉ rres r /\ forall n, n ∈ rnodes r -> o ∉ nins n.
