(** * What memory state edges mean

    A specification that does not mention the normalizations.  A memory state
    is what is known about every byte of memory: how many writes to that byte
    are ordered before it (0: nothing is known), and what the last of them
    wrote.  Joining states keeps, per byte, what is known by the most recent
    write.  A load reads the join of its states and passes each state on; a
    store writes its bytes on top of the join of its states and passes on what
    each state knows about every other byte; the state of an alloca knows its
    own bytes and nothing else. *)
From stdpp Require Import tactics base list numbers.
From Verif.Memory Require Import Model.
Local Open Scope Z_scope.

(** Values, addresses and their encoding as bytes: arbitrary. *)
Record machine := Machine {
  val : Type;
  dummy : val;                                 (** never used by well-typed graphs *)
  has : ty → val → Prop;                       (** values of a type *)
  adr : val → Z;                               (** the address of a pointer *)
  gep : Z → val → val;                         (** pointer plus bytes *)
  enc : ty → val → list Z;
  dec : ty → list Z → val;
  adr_gep : ∀ c v, adr (gep c v) = adr v + c;
  enc_length : ∀ t v, length (enc t v) = tsize t;
  dec_enc : ∀ t v, has t v → dec t (enc t v) = v;
}.

(** Per byte: number of ordered writes, last byte written. *)
Definition state := Z → nat * Z.
Definition bot : state := λ _, (0%nat, 0).
Definition newer (e1 e2 : nat * Z) : nat * Z := if (e1.1 <? e2.1)%nat then e2 else e1.
Definition join (ss : list state) : state := λ x, fold_left newer (map (λ s, s x) ss) (0%nat, 0).
Definition in_range (a : Z) (n : nat) (x : Z) : Prop := a ≤ x < a + Z.of_nat n.
Global Instance in_range_dec a n x : Decision (in_range a n x).
Proof. unfold in_range. apply _. Defined.
Definition read (a : Z) (n : nat) (s : state) : list Z := map (λ i, (s (a + Z.of_nat i)).2) (seq 0 n).
Definition write (a : Z) (bs : list Z) (ss : list state) (s : state) : state := λ x,
  if decide (in_range a (length bs) x)
  then (S (join ss x).1, nth (Z.to_nat (x - a)) bs 0)
  else s x.

(** What an output carries: a value or a memory state. *)
Inductive sem {M : machine} := SV (v : val M) | SS (s : state).
Arguments sem : clear implicits.
Definition valof {M} (p : sem M) : val M := match p with SV v => v | SS _ => dummy M end.
Definition stof {M} (p : sem M) : state := match p with SS s => s | SV _ => bot end.

(** The rest of the program: arbitrary. *)
Record env (M : machine) := Env {
  other : nat → nat → list (sem M) → sem M;                  (** outputs of other nodes *)
  object : nat → val M;                                      (** addresses of deltas and imports *)
  alloc : nat → val M;                                       (** addresses of allocas *)
  asize : nat → nat;                                         (** their sizes *)
  garbage : nat → Z → Z;                                     (** their initial bytes *)
}.
Arguments other {_}. Arguments object {_}. Arguments alloc {_}. Arguments asize {_}. Arguments garbage {_}.

Section eval.
Context {M : machine} (E : env M).

Definition alloc_state (id : nat) (sz : nat) : state := λ x,
  if decide (in_range (adr M (alloc E id)) sz x) then (1%nat, garbage E id x) else (0%nat, 0).

Fixpoint eval (x : out) : sem M :=
  match x with
  | Out id o ops i =>
      let es := map eval ops in
      match o, es with
      | OObject _, _ => SV (object E id)
      | OAlloca sz, _ => if decide (i = 0%nat) then SV (alloc E id) else SS (alloc_state id sz)
      | OLoad t, a :: ss =>
          match i with
          | O => SV (dec M t (read (adr M (valof a)) (tsize t) (join (map stof ss))))
          | S j => SS (nth j (map stof ss) bot)
          end
      | OStore t, a :: v :: ss =>
          SS (write (adr M (valof a)) (enc M t (valof v)) (map stof ss) (nth i (map stof ss) bot))
      | OMerge, _ | OJoin, _ | OLambdaExit, _ => SS (join (map stof es))
      | OSplit _, s :: _ => SS (stof s)
      | OBarrier, a :: _ => SV (valof a)
      | OGep (Some c), b :: _ => SV (gep M c (valof b))
      | OUndef, _ => SS bot
      | _, _ => other E id i es
      end
  end.

(** Two outputs carry the same: the same value, or the same knowledge of every byte. *)
Definition sem_eq (p q : sem M) : Prop :=
  match p, q with
  | SV v, SV w => v = w
  | SS s, SS s' => ∀ x, s x = s' x
  | _, _ => False
  end.
Definition same (x y : out) : Prop := sem_eq (eval x) (eval y).

(** Node [n] has outputs [olds]; replacing them one by one by [news] preserves all that is computed. *)
Definition replaces (olds news : list out) : Prop := Forall2 same olds news.

(** The state and the value of an output. *)
Definition stv (x : out) : state := stof (eval x).
Definition vv (x : out) : val M := valof (eval x).
Definition is_state (x : out) : Prop := ∃ s, eval x = SS s.

(** Nothing is known without a write (of the rest of the program too). *)
Definition known (s : state) : Prop := ∀ x, (s x).1 = 0%nat → s x = (0%nat, 0).
Definition other_known : Prop := ∀ id i es, known (stof (other E id i es)).
(** The rest of the program is a function of what it is given. *)
Definition other_proper : Prop := ∀ id i es es',
  Forall2 sem_eq es es' → sem_eq (other E id i es) (other E id i es').

(** Race freedom: states that know equally many writes to a byte know the same byte. *)
Definition race_free (ss : list out) : Prop := ∀ s s' x, s ∈ ss → s' ∈ ss →
  (stv s x).1 = (stv s' x).1 → stv s x = stv s' x.

(** Stores store values of their type. *)
Definition store_typed (s : out) : Prop :=
  match s with
  | Out _ (OStore t) (_ :: v :: _) _ => ∃ w, eval v = SV w ∧ has M t w
  | _ => True
  end.

(** Distinct allocas occupy disjoint memory. *)
Definition allocas_disjoint : Prop := ∀ i j x, i ≠ j →
  in_range (adr M (alloc E i)) (asize E i) x → ¬ in_range (adr M (alloc E j)) (asize E j) x.
(** The alloca that owns an output has the size the environment gives it. *)
Definition alloca_sized (x : out) : Prop :=
  match x with Out id (OAlloca sz) _ _ => sz = asize E id | _ => True end.
(** An access of type [t] through the address [a] itself stays within the object. *)
Definition fits (t : ty) (a : out) : Prop :=
  ∀ sz, alloc_size a = Some sz → (tsize t ≤ sz)%nat.
Definition fits_store (s : out) : Prop :=
  match s with
  | Out _ (OStore t) (a :: _) _ => is_alloca a = true → alloca_sized a ∧ index_of a = 0%nat ∧ fits t a
  | _ => True
  end.
(** The memory state of the alloca that owns [a]. *)
Definition state_of_alloca (a s : out) : Prop := node_of s = node_of a ∧ index_of s = 1%nat.
(** [x] is a byte of some alloca. *)
Definition local_byte (x : Z) : Prop := ∃ i, in_range (adr M (alloc E i)) (asize E i) x.

End eval.

(** The nodes of a graph have different identities. *)
Definition id_of (x : out) : nat := match x with Out id _ _ _ => id end.
Definition ids_unique (xs : list out) : Prop := ∀ x y, x ∈ xs → y ∈ xs → id_of x = id_of y → node_of x = node_of y.

(** The outputs of a node. *)
Definition outputs (id : nat) (o : op) (ops : list out) (n : nat) : list out :=
  map (Out id o ops) (seq 0 n).

(** Everything an output depends on. *)
Inductive upstream : out → out → Prop :=
| up_here x : upstream x x
| up_op id o ops i y x : y ∈ ops → upstream y x → upstream (Out id o ops i) x.

(** Diverting the users of output [x] to output [y] in the graph above [z]. *)
Fixpoint divert_in (x y z : out) : out :=
  match z with
  | Out id o ops i =>
      if decide (z = x) then y else Out id o (map (divert_in x y) ops) i
  end.

(** An alloca's own chain of states: its initial state, and the states of loads
    and of stores that fit, through its address, on its own chain. *)
Inductive own_chain (bid sz : nat) (bops : list out) : out → Prop :=
| own_alloca : own_chain bid sz bops (Out bid (OAlloca sz) bops 1)
| own_load id t ss i : Forall (own_chain bid sz bops) ss →
    own_chain bid sz bops (Out id (OLoad t) (Out bid (OAlloca sz) bops 0 :: ss) (S i))
| own_store id t v ss i : (tsize t ≤ sz)%nat → Forall (own_chain bid sz bops) ss →
    own_chain bid sz bops (Out id (OStore t) (Out bid (OAlloca sz) bops 0 :: v :: ss) i).
