(** Specification of worklists over traces of push and pop events. *)
From stdpp Require Import list.
From Verif.Worklist Require Import Model.

Section spec.
  Context {T : Type} `{EqDecision T}.

  (** x was pushed and not popped since. *)
  Definition pending (tr : list (event T)) (x : T) : Prop :=
    ∃ tr1 tr2, tr = tr1 ++ Pushed x :: tr2 ∧ Popped x ∉ tr2.

  (** The pending items in the order in which they became pending. *)
  Definition pending_step (l : list T) (e : event T) : list T :=
    match e with
    | Pushed x => if decide (x ∈ l) then l else l ++ [x]
    | Popped x => filter (λ y, y ≠ x) l
    end.
  Definition pending_list (tr : list (event T)) : list T := fold_left pending_step tr [].

  (** The popped items, oldest first. *)
  Definition pops (tr : list (event T)) : list T :=
    omap (λ e, match e with Popped x => Some x | _ => None end) tr.

  (** Number of the last pop (1, 2, ...) that returned x; 0 if there is none. *)
  Definition last_pop (tr : list (event T)) (x : T) : nat :=
    (fold_left (λ '(n, r) y, (S n, if decide (y = x) then S n else r)) (pops tr) (0, 0)).2.

  (** Pop policies: may x be returned by a pop after trace tr? *)
  Definition lifo_choice tr (x : T) : Prop := last (pending_list tr) = Some x.
  Definition fifo_choice tr (x : T) : Prop := head (pending_list tr) = Some x.
  Definition lrf_choice tr (x : T) : Prop :=
    pending tr x ∧ ∀ y, pending tr y → last_pop tr x ≤ last_pop tr y.

  (** Two-phase: a batch consists of everything pending when the previous batch
      is exhausted and the next pop happens. [batch tr] is what is left of the
      current one. *)
  Definition batch_step (st : list T * list (event T)) (e : event T) : list T * list (event T) :=
    let '(b, tr) := st in
    match e with
    | Pushed _ => (b, tr ++ [e])
    | Popped x =>
        let b := match b with [] => pending_list tr | _ => b end in
        (filter (λ y, y ≠ x) b, tr ++ [e])
    end.
  Definition batch (tr : list (event T)) : list T := (fold_left batch_step tr ([], [])).1.
  Definition current_batch (tr : list (event T)) : list T :=
    match batch tr with [] => pending_list tr | b => b end.
  Definition two_phase_choice tr (x : T) : Prop :=
    x ∈ current_batch tr ∧ ∀ y, y ∈ current_batch tr → last_pop tr x ≤ last_pop tr y.

  (** Every pop in the trace obeys the policy. *)
  Definition obeys (choice : list (event T) → T → Prop) (tr : list (event T)) : Prop :=
    ∀ tr1 x tr2, tr = tr1 ++ Popped x :: tr2 → choice tr1 x.

  (** What a worklist in state s, reached by trace tr, must satisfy: every pop
      returned a pending item according to the policy; HasMoreWorkItems tells
      whether something is pending; pushing a pending item changes nothing; pop
      fails only if nothing is pending. *)
  Definition answers (W : worklist T) (choice : list (event T) → T → Prop)
      (s : state W) (tr : list (event T)) : Prop :=
    obeys choice tr ∧ obeys pending tr ∧
    (HasMoreWorkItems W s = true ↔ ∃ x, pending tr x) ∧
    (∀ x, pending tr x → PushWorkItem W s x = s) ∧
    (PopWorkItem W s = None ↔ HasMoreWorkItems W s = false).
End spec.
