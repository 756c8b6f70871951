(** Model of jlm/util/Worklist.hpp: LifoWorklist, FifoWorklist, LrfWorklist,
    TwoPhaseLrfWorklist and Workset. *)
From stdpp Require Import gmap list.
From Coq Require Import NArith.

(** Worklist.hpp:44-64: the virtual interface Worklist<T>.  [pop] returns [None]
    where the code asserts that there is a work item. *)
Record worklist (T : Type) := Worklist {
  state : Type;
  init : state;
  HasMoreWorkItems : state → bool;
  PopWorkItem : state → option (T * state);
  PushWorkItem : state → T → state
}.
Arguments Worklist {T state}.
Arguments state {T}.
Arguments init {T}.
Arguments HasMoreWorkItems {T}.
Arguments PopWorkItem {T}.
Arguments PushWorkItem {T}.

Section model.
  Context {T : Type} `{Countable T}.

  (** Worklist.hpp:105-109 and 150-154: OnList_ and WorkItems_.  The stack keeps
      its top at the head; the queue keeps its front at the head. *)
  Record simple := Simple { onList : gset T; workItems : list T }.

  (** Worklist.hpp:87-95 LifoWorklist::PopWorkItem; 132-140 FifoWorklist::PopWorkItem
      (both take the head in this representation) *)
  Definition simple_pop (s : simple) : option (T * simple) :=
    match workItems s with
    | [] => None
    | item :: rest => Some (item, Simple (onList s ∖ {[item]}) rest)
    end.

  (** Worklist.hpp:97-102 LifoWorklist::PushWorkItem *)
  Definition lifo_push (s : simple) (item : T) : simple :=
    if decide (item ∈ onList s) then s
    else Simple ({[item]} ∪ onList s) (item :: workItems s).

  (** Worklist.hpp:142-147 FifoWorklist::PushWorkItem *)
  Definition fifo_push (s : simple) (item : T) : simple :=
    if decide (item ∈ onList s) then s
    else Simple ({[item]} ∪ onList s) (workItems s ++ [item]).

  (** Worklist.hpp:81-85, 126-130 HasMoreWorkItems *)
  Definition simple_has (s : simple) : bool :=
    match workItems s with [] => false | _ => true end.

  (** Worklist.hpp:73-110, 118-155 *)
  Definition LifoWorklist : worklist T :=
    Worklist (Simple ∅ []) simple_has simple_pop lifo_push.
  Definition FifoWorklist : worklist T :=
    Worklist (Simple ∅ []) simple_has simple_pop fifo_push.

  (** Worklist.hpp:207 InQueueSentinelValue = SIZE_MAX *)
  Definition sentinel : N := (2 ^ 64 - 1)%N.
  (** size_t increment *)
  Definition incr64 (c : N) : N := ((c + 1) mod 2 ^ 64)%N.

  (** Worklist.hpp:213-221: WorkItems_ (priority queue, as a list), FireCounter_,
      LastFire_ (operator[] creates 0) *)
  Record lrf := Lrf { queue : list (N * T); counter : N; lastFire : gmap T N }.
  Definition fire_of (m : gmap T N) (x : T) : N := default 0%N (m !! x).

  (** operator< on T *)
  Variable ltT : T → T → bool.
  (** std::pair's operator< *)
  Definition pair_lt (a b : N * T) : bool :=
    ((a.1 <? b.1) || (negb (b.1 <? a.1) && ltT a.2 b.2))%N.

  (** priority_queue top() with std::greater: a smallest pair *)
  Fixpoint min_pair (best : N * T) (l : list (N * T)) : N * T :=
    match l with
    | [] => best
    | e :: l => min_pair (if pair_lt e best then e else best) l
    end.
  (** pop(): removes one occurrence of the top *)
  Fixpoint remove_one (e : N * T) (l : list (N * T)) : list (N * T) :=
    match l with
    | [] => []
    | e' :: l => if decide (e' = e) then l else e' :: remove_one e l
    end.

  (** Worklist.hpp:182-191 LrfWorklist::PopWorkItem *)
  Definition lrf_pop (s : lrf) : option (T * lrf) :=
    match queue s with
    | [] => None
    | e :: l =>
        let top := min_pair e l in
        let c := incr64 (counter s) in
        Some (top.2, Lrf (remove_one top (queue s)) c (<[top.2 := c]> (lastFire s)))
    end.
  (** Worklist.hpp:193-203 LrfWorklist::PushWorkItem *)
  Definition lrf_push (s : lrf) (item : T) : lrf :=
    let f := fire_of (lastFire s) item in
    if decide (f = sentinel) then s
    else Lrf ((f, item) :: queue s) (counter s) (<[item := sentinel]> (lastFire s)).
  (** Worklist.hpp:176-180 *)
  Definition lrf_has (s : lrf) : bool := match queue s with [] => false | _ => true end.
  Definition LrfWorklist : worklist T :=
    Worklist (Lrf [] 0 ∅) lrf_has lrf_pop lrf_push.

  (** Worklist.hpp:282-294: Current_ and Next_ of TwoPhaseLrfWorklist. [current]
      has back() at its head. *)
  Record lrf2 := Lrf2 { current : list (N * T); next : list (N * T);
                        counter2 : N; lastFire2 : gmap T N }.

  (** std::sort(rbegin, rend): ascending from the back.  Insertion sort stands
      for std::sort. *)
  Fixpoint sort_insert (e : N * T) (l : list (N * T)) : list (N * T) :=
    match l with
    | [] => [e]
    | e' :: l' => if pair_lt e' e then e' :: sort_insert e l' else e :: l
    end.
  Definition sort_pairs (l : list (N * T)) : list (N * T) := foldr sort_insert [] l.

  (** Worklist.hpp:249-264 TwoPhaseLrfWorklist::PopWorkItem *)
  Definition lrf2_pop (s : lrf2) : option (T * lrf2) :=
    let '(cur, nxt) := match current s with
                       | [] => (sort_pairs (next s), [])
                       | c => (c, next s)
                       end in
    match cur with
    | [] => None
    | (_, item) :: cur =>
        let c := incr64 (counter2 s) in
        Some (item, Lrf2 cur nxt c (<[item := c]> (lastFire2 s)))
    end.
  (** Worklist.hpp:266-276 TwoPhaseLrfWorklist::PushWorkItem *)
  Definition lrf2_push (s : lrf2) (item : T) : lrf2 :=
    let f := fire_of (lastFire2 s) item in
    if decide (f = sentinel) then s
    else Lrf2 (current s) (next s ++ [(f, item)]) (counter2 s) (<[item := sentinel]> (lastFire2 s)).
  (** Worklist.hpp:243-247 *)
  Definition lrf2_has (s : lrf2) : bool :=
    match current s, next s with [], [] => false | _, _ => true end.
  Definition TwoPhaseLrfWorklist : worklist T :=
    Worklist (Lrf2 [] [] 0 ∅) lrf2_has lrf2_pop lrf2_push.

  (** Worklist.hpp:305-345 Workset: PushedItems_ *)
  Definition workset_push (s : gset T) (x : T) : gset T := {[x]} ∪ s.
  Definition workset_remove (s : gset T) (x : T) : gset T := s ∖ {[x]}.
  Definition workset_has_item (s : gset T) (x : T) : bool := bool_decide (x ∈ s).
  Definition workset_has_more (s : gset T) : bool := bool_decide (s ≠ ∅).
End model.
Arguments simple T {_ _}.
Arguments lrf T {_ _}.
Arguments lrf2 T {_ _}.

(** Client programs: push x or pop; the trace records what pop returned. *)
Inductive op (T : Type) := OPush (x : T) | OPop.
Arguments OPush {T}. Arguments OPop {T}.
Inductive event (T : Type) := Pushed (x : T) | Popped (x : T).
Arguments Pushed {T}. Arguments Popped {T}.

Section run.
  Context {T : Type}.
  Variable W : worklist T.
  Definition step (st : state W * list (event T)) (o : op T)
    : option (state W * list (event T)) :=
    let '(s, tr) := st in
    match o with
    | OPush x => Some (PushWorkItem W s x, tr ++ [Pushed x])
    | OPop => match PopWorkItem W s with
              | Some (x, s') => Some (s', tr ++ [Popped x])
              | None => None
              end
    end.
  Fixpoint run (st : state W * list (event T)) (ops : list (op T))
    : option (state W * list (event T)) :=
    match ops with
    | [] => Some st
    | o :: ops => match step st o with Some st' => run st' ops | None => None end
    end.
End run.
