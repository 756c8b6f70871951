(** Model of jlm/rvsdg/traverser.cpp and traverser.hpp on top of the model of a
    region: the traversers are observers of the region (Region/Model.v) with a
    tracker as state.

    Simplifications: [State::pos] is not kept, erasing from the frontier list is
    removing the node (every node is in the list at most once: proved);
    activation counts are natural numbers (uint32_t in the code; they count edges
    of one node: proved). *)
From stdpp Require Import base list gmap.
From Verif.Region Require Import Model.

(** traverser.hpp:27-35 TraversalNodeState *)
Inductive tstate := Ahead | Frontier | Behind.
Global Instance tstate_eq_dec : EqDecision tstate.
Proof. solve_decision. Defined.
(** traverser.hpp:75-84 State, states_, frontier_ *)
Record tracker := { states : gmap ptr (tstate * nat); frontier : list ptr }.
Definition no_tracker : tracker := {| states := ∅; frontier := [] |}.
(** the entry of a node, [emplace]d if there is none *)
Definition entry (t : tracker) (n : ptr) : tstate * nat := default (Ahead, 0) (states t !! n).
Definition set_entry (n : ptr) (s : tstate) (c : nat) (t : tracker) : tracker :=
  {| states := <[n := (s, c)]> (states t); frontier := frontier t |}.
Definition erase_frontier (n : ptr) (t : tracker) : tracker :=
  {| states := states t; frontier := filter (fun m => m <> n) (frontier t) |}.
Definition push_frontier (n : ptr) (t : tracker) : tracker :=
  {| states := states t; frontier := frontier t ++ [n] |}.

(** traverser.cpp:415-421 isNodeVisited *)
Definition is_visited (t : tracker) (n : ptr) : bool := bool_decide ((entry t n).1 = Behind).
(** traverser.cpp:423-434 checkNodeActivation *)
Definition check_activation (n : ptr) (threshold : nat) (t : tracker) : tracker :=
  let '(s, c) := entry t n in
  if decide (threshold <= c /\ s = Ahead) then set_entry n Frontier c (push_frontier n t) else set_entry n s c t.
(** traverser.cpp:436-447 checkNodeDeactivation *)
Definition check_deactivation (n : ptr) (threshold : nat) (t : tracker) : tracker :=
  let '(s, c) := entry t n in
  if decide (c < threshold /\ s = Frontier) then set_entry n Ahead c (erase_frontier n t) else set_entry n s c t.
(** traverser.cpp:449-460 checkMarkNodeVisitedIfFrontier *)
Definition mark_if_frontier (n : ptr) (t : tracker) : tracker :=
  let '(s, c) := entry t n in
  if decide (s = Frontier) then set_entry n Behind c (erase_frontier n t) else set_entry n s c t.
(** traverser.cpp:462-469 incActivationCount *)
Definition inc_activation (n : ptr) (threshold : nat) (t : tracker) : tracker :=
  let '(s, c) := entry t n in check_activation n threshold (set_entry n s (S c) t).
(** traverser.cpp:471-478 decActivationCount *)
Definition dec_activation (n : ptr) (threshold : nat) (t : tracker) : tracker :=
  let '(s, c) := entry t n in check_deactivation n threshold (set_entry n s (pred c) t).
(** traverser.cpp:480-490 removeNode *)
Definition forget (n : ptr) (t : tracker) : tracker :=
  match states t !! n with
  | None => t
  | Some (s, _) => let t := if decide (s = Frontier) then erase_frontier n t else t in
                   {| states := delete n (states t); frontier := frontier t |}
  end.
(** traverser.cpp:492-497 peek *)
Definition peek (t : tracker) : option ptr := head (frontier t).

(** ninputs() and numSuccessors() of a node *)
Definition ninputs (r : region) (n : ptr) : nat := match nodes r !! n with Some nd => length (nd_inputs nd) | None => 0 end.
Definition nsuccessors (r : region) (n : ptr) : nat := match nodes r !! n with Some nd => nd_succ nd | None => 0 end.
(** TryGetOwnerNode of an input and of an output *)
Definition owner_node (o : owner) : option ptr := match o with ONode n => Some n | ORegion => None end.
Definition input_node (r : region) (i : ptr) : option ptr := x ← inputs r !! i; owner_node (in_owner x).
Definition output_node (r : region) (o : ptr) : option ptr := y ← outputs r !! o; owner_node (out_owner y).
(** the node that owns the origin of an input *)
Definition origin_node (r : region) (i : ptr) : option ptr := x ← inputs r !! i; o ← in_origin x; output_node r o.
Definition node_inputs (r : region) (n : ptr) : list ptr := match nodes r !! n with Some nd => nd_inputs nd | None => [] end.
(** the users of all outputs of a node *)
Definition users_at (r : region) (o : ptr) : list ptr := match outputs r !! o with Some y => out_users y | None => [] end.
Definition node_users (r : region) (n : ptr) : list ptr :=
  match nodes r !! n with Some nd => concat (map (users_at r) (nd_outputs nd)) | None => [] end.
(** do something with the node on the other end of an input *)
Definition with_node (o : option ptr) (f : ptr -> tracker -> tracker) (t : tracker) : tracker :=
  match o with Some n => f n t | None => t end.

(** ** TopDownTraverserGeneric *)
(** traverser.cpp:99-110 isOutputActivated *)
Definition td_activated (r : region) (t : tracker) (o : ptr) : bool :=
  match output_node r o with Some n => is_visited t n | None => true end.
Definition td_input_activated (r : region) (t : tracker) (i : ptr) : bool :=
  match origin_node r i with Some n => is_visited t n | None => true end.
Definition td_inc_user (r : region) (i : ptr) (t : tracker) : tracker :=
  with_node (input_node r i) (fun n => inc_activation n (ninputs r n)) t.
(** traverser.cpp:112-127 markAsVisited *)
Definition td_mark (r : region) (n : ptr) (t : tracker) : tracker :=
  foldl (fun t i => td_inc_user r i t) (mark_if_frontier n t) (node_users r n).
(** traverser.cpp:77-97 constructor: TopNodes, then the users of the arguments *)
Definition td_init (r : region) : tracker :=
  let t := foldl (fun t n => check_activation n (ninputs r n) t) no_tracker (il_elems (top r)) in
  foldl (fun t i => td_inc_user r i t) t (concat (map (users_at r) (args r))).
(** traverser.cpp:129-147 next; [fuel] bounds the iterations of while (true) *)
Fixpoint td_next (cutoff : nat) (fuel : nat) (s : region * tracker) : option (option ptr * (region * tracker)) :=
  match peek s.2 with
  | None => Some (None, s)
  | Some n =>
    match fuel with
    | O => None
    | S fuel =>
      let s := (s.1, td_mark s.1 n s.2) in
      match nodes s.1 !! n with
      | None => None
      | Some nd => if decide (cutoff <= nd_id nd) then td_next cutoff fuel s else Some (Some n, s)
      end
    end
  end.
(** traverser.cpp:149-250 onNodeCreate, onNodeDestroy, onInputCreate, onInputChange, onInputDestroy *)
Definition td_obs (e : event) (r : region) (t : tracker) : tracker :=
  match e with
  | ENodeCreate n =>
    let t := if decide (ninputs r n = 0) then check_activation n (ninputs r n) t
             else foldl (fun t i => if td_input_activated r t i then inc_activation n (ninputs r n) t else t) t (node_inputs r n) in
    mark_if_frontier n t
  | ENodeDestroy n => forget n t
  | EInputCreate i =>
    with_node (input_node r i) (fun n t =>
      if td_input_activated r t i then inc_activation n (ninputs r n) t else check_deactivation n (ninputs r n) t) t
  | EInputChange i o o' =>
    with_node (input_node r i) (fun n t =>
      match td_activated r t o', td_activated r t o with
      | true, false => inc_activation n (ninputs r n) t
      | false, true => dec_activation n (ninputs r n) t
      | _, _ => t
      end) t
  | EInputDestroy i =>
    with_node (input_node r i) (fun n t =>
      if td_input_activated r t i then dec_activation n 0 t else check_activation n (ninputs r n - 1) t) t
  end.

(** ** BottomUpTraverserGeneric *)
(** traverser.cpp:273-284 isInputActivated *)
Definition bu_activated (r : region) (t : tracker) (i : ptr) : bool :=
  match input_node r i with Some n => is_visited t n | None => true end.
Definition bu_inc_pred (r : region) (i : ptr) (t : tracker) : tracker :=
  with_node (origin_node r i) (fun n => inc_activation n (nsuccessors r n)) t.
(** traverser.cpp:286-298 markAsVisited *)
Definition bu_mark (r : region) (n : ptr) (t : tracker) : tracker :=
  foldl (fun t i => bu_inc_pred r i t) (mark_if_frontier n t) (node_inputs r n).
(** traverser.cpp:255-271 constructor: BottomNodes, then the origins of the results *)
Definition bu_init (r : region) : tracker :=
  let t := foldl (fun t n => check_activation n (nsuccessors r n) t) no_tracker (il_elems (bottom r)) in
  foldl (fun t i => bu_inc_pred r i t) t (results r).
(** traverser.cpp:300-310 next *)
Definition bu_next (s : region * tracker) : option ptr * (region * tracker) :=
  match peek s.2 with
  | None => (None, s)
  | Some n => (Some n, (s.1, bu_mark s.1 n s.2))
  end.
(** traverser.cpp:312-413 the notifications *)
Definition bu_obs (e : event) (r : region) (t : tracker) : tracker :=
  match e with
  | ENodeCreate n => bu_mark r n t
  | ENodeDestroy n =>
    let t := if is_visited t n then t else bu_mark r n t in
    foldl (fun t i => with_node (origin_node r i) (fun p => dec_activation p 0) t) t (node_inputs r n)
  | EInputCreate i =>
    with_node (origin_node r i) (fun n t =>
      if bu_activated r t i then inc_activation n (nsuccessors r n) t else check_deactivation n (nsuccessors r n) t) t
  | EInputChange i o o' =>
    let active := bu_activated r t i in
    let t := with_node (output_node r o) (fun n t =>
      if active then dec_activation n (nsuccessors r n) t else check_activation n (nsuccessors r n) t) t in
    with_node (output_node r o') (fun n t =>
      if active then inc_activation n (nsuccessors r n) t else check_deactivation n (nsuccessors r n) t) t
  | EInputDestroy i =>
    with_node (origin_node r i) (fun n t =>
      if bu_activated r t i then dec_activation n 0 t else check_activation n (nsuccessors r n - 1) t) t
  end.
