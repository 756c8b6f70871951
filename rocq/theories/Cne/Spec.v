(** When a module may replace another: every function, global variable and result computes the same. *)
From stdpp Require Import base list list_numbers fin_sets gmap.
From Verif.Rvsdg Require Import Model Spec Refine Local.

(** a module without loops *)
Definition theta_free (t : region) : Prop := forall r n, reg t r -> n ∈ rnodes r -> nkind n <> Theta.

(** s x is x, or comes before x in the same region *)
Definition leaders_first (s : oid -> oid) (t : region) : Prop := forall r, reg t r ->
  (forall a, a ∈ rargs r -> s a ∈ rargs r) /\
  forall pre n post o, rnodes r = pre ++ n :: post -> o ∈ nouts n -> s o ∈ rargs r \/ (exists m, m ∈ pre /\ s o ∈ nouts m) \/ s o ∈ nouts n.

(** the regions that are traversed: all but the bodies of global variables *)
Inductive visited_region (t : region) : region -> Prop :=
  | vis_root : visited_region t t
  | vis_sub r n r' : visited_region t r -> n ∈ rnodes r -> nkind n <> Delta -> r' ∈ nsubs n -> visited_region t r'.
(** the operation of a simple node and the number of its inputs determine the number of its outputs *)
Definition op_outputs (t : region) : Prop := forall r m n, reg t r -> m ∈ rnodes r -> n ∈ rnodes r -> nkind m = nkind n -> (exists op, nkind n = Simple op \/ nkind n = Load op) ->
  length (nins m) = length (nins n) -> length (nouts m) = length (nouts n).
(** no branch of a gamma node has its match content, argument 0, as a result *)
Definition content_free (t : region) : Prop := forall r n s, reg t r -> n ∈ rnodes r -> nkind n = Gamma -> s ∈ nsubs n -> forall c, rargs s !! 0 = Some c -> c ∉ rres s.
(** something uses the output *)
Definition used (t : region) (o : oid) : Prop := exists r, reg t r /\ (o ∈ rres r \/ exists n, n ∈ rnodes r /\ o ∈ nins n).

(** the origin x of argument i of subregion r of n; argument 0 of a branch, the arguments of a function and the recursion variables have none *)
Inductive enters (n : node) (r : region) (i : nat) (x : oid) : Prop :=
  | ent_gamma j : nkind n = Gamma -> i = S j -> nins n !! i = Some x -> enters n r i x
  | ent_theta : nkind n = Theta -> nins n !! i = Some x -> enters n r i x
  | ent_lambda m j : nkind n = Lambda m -> i = m + j -> nins n !! j = Some x -> enters n r i x
  | ent_phi j : nkind n = Phi -> i = length (rres r) + j -> nins n !! j = Some x -> enters n r i x.
(** what is used is computed once, outside the bodies of global variables: simple nodes of one region with the same operation and operands, arguments of one
    region with the same origin, and exit variables of one gamma node with the same value in every branch, not an argument in all of them *)
Record computed_once (t : region) : Prop := ComputedOnce {
  once_simple : forall r m n i x y, visited_region t r -> m ∈ rnodes r -> n ∈ rnodes r -> (exists op, nkind n = Simple op \/ nkind n = Load op) -> nkind m = nkind n -> nins m = nins n ->
    nouts m !! i = Some x -> nouts n !! i = Some y -> used t x -> used t y -> x = y;
  once_arg : forall r n q i j a b x, visited_region t r -> n ∈ rnodes r -> nkind n <> Delta -> q ∈ nsubs n -> rargs q !! i = Some a -> rargs q !! j = Some b -> enters n q i x -> enters n q j x -> used t a -> used t b -> a = b;
  once_exit : forall r n i j x y, visited_region t r -> n ∈ rnodes r -> nkind n = Gamma -> nouts n !! i = Some x -> nouts n !! j = Some y -> (forall q, q ∈ nsubs n -> rres q !! i = rres q !! j) ->
    (exists q z, q ∈ nsubs n /\ rres q !! i = Some z /\ z ∉ rargs q) -> used t x -> used t y -> x = y }.

Section Same.
  Context {V : Type} (ctl : V -> option nat) (content : V -> V) (sem : nat -> list V -> option (list V)) (addr imp : nat -> V).
  (** for every function of t there is the function of t' with the same output, node and arguments, and its results have the values of those of t whatever
      the values of the arguments; likewise for the global variables and the results of the module *)
  Record same_functions (t t' : region) : Prop := SameFunctions {
    same_res : same_values ctl content sem addr imp t t' (rres t) (rres t');
    same_lambda : forall o id a r, (o, VLambda id a r) ∈ defs t -> exists r', (o, VLambda id a r') ∈ defs t' /\ same_values ctl content sem addr imp t t' r r';
    same_delta : forall o id r, (o, VDelta id r) ∈ defs t -> exists r', (o, VDelta id r') ∈ defs t' /\ same_values ctl content sem addr imp t t' r r' }.
End Same.
