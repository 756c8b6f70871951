(** Model of the worklist solver, PointerObjectSet.cpp:1547-2180 RunWorklistSolver,
    with DifferencePropagation.hpp, LazyCycleDetection.hpp and OnlineCycleDetection.hpp.

    Simplifications, besides those of Model.v:
    - the worklist is the set of pending items; [pick] is the order in which they
      are popped, any order at all: it covers LrfWorklist, TwoPhaseLrfWorklist,
      LifoWorklist and FifoWorklist, that C06 and C07 show to pop each pending item;
      the Workset policy has its own driver, as in the code;
    - a loop over a hash set iterates over a snapshot in any order [ord]. (The one
      loop that erases from the set it iterates over, 1963-2007, does so through the
      iterator, that is, it removes the current element of the snapshot.)
    - [None] is a failed JLM_ASSERT or a loop that ran out of fuel: proved impossible. *)
From stdpp Require Import base list list_numbers fin_sets gmap.
From Verif.Andersen Require Import Model.
From Verif.Tarjan Require Model.

(** the template parameters of RunWorklistSolver, 1547-1553 *)
Record cfg := mkcfg { ocd : bool; hcd : bool; lcd : bool; dp : bool; pip : bool }.

(** 1569-1582 supersetEdges, storeConstraints, loadConstraints, callConstraints *)
Record tables := mktb { edges : nat -> gset nat; stc : nat -> gset nat; ldc : nat -> gset nat; clc : nat -> gset nat }.
(** DifferencePropagation.hpp:222-236 *)
Record diff := mkdiff { newp : nat -> gset nat; tracked : gset nat; extseen : gset nat; peseen : gset nat }.
(** RefNodeUnificationRoot_ (PointerObjectSet.hpp); CheckedEdges_ (LazyCycleDetection.hpp:171);
    ObjectToTopoOrder_, TopoOrderToObject_ (OnlineCycleDetection.hpp; None: EmptyTopologicalSlot) *)
Record cyc := mkcyc { refroot : nat -> option nat; checked : gset (nat * nat); o2t : nat -> option nat; t2o : nat -> option nat }.
(** the local variables of RunWorklistSolver *)
Record ws := mkws { P : pos; tb : tables; df : diff; cy : cyc; wl : gset nat; newE : gset (nat * nat) }.
Definition setP p w := mkws p (tb w) (df w) (cy w) (wl w) (newE w).
Definition setT t w := mkws (P w) t (df w) (cy w) (wl w) (newE w).
Definition setD d w := mkws (P w) (tb w) d (cy w) (wl w) (newE w).
Definition setC c w := mkws (P w) (tb w) (df w) c (wl w) (newE w).
Definition setW l w := mkws (P w) (tb w) (df w) (cy w) l (newE w).
Definition setN e w := mkws (P w) (tb w) (df w) (cy w) (wl w) e.

Definition rt (w : ws) (i : nat) : nat := root (P w) i.
(** worklist.PushWorkItem *)
Definition push (x : nat) (w : ws) : ws := setW ({[x]} ∪ wl w) w.

(** DifferencePropagation.hpp:52-60 ClearNewPointees *)
Definition clear_new (i : nat) (w : ws) : ws :=
  let d := df w in setD (mkdiff (upd (newp d) i ∅) ({[i]} ∪ tracked d) (extseen d) (peseen d)) w.
(** 119-124 OnRemoveAllPointees *)
Definition on_remove_all (i : nat) (w : ws) : ws :=
  let d := df w in setD (mkdiff (upd (newp d) i ∅) (tracked d ∖ {[i]}) (extseen d) (peseen d)) w.
(** 151-157, 188-194 Mark...AsHandled *)
Definition ext_handled (i : nat) (w : ws) : ws :=
  let d := df w in setD (mkdiff (newp d) (tracked d) ({[i]} ∪ extseen d) (peseen d)) w.
Definition pe_handled (i : nat) (w : ws) : ws :=
  let d := df w in setD (mkdiff (newp d) (tracked d) (extseen d) ({[i]} ∪ peseen d)) w.
(** 206-220 OnPointerObjectsUnified *)
Definition on_unified (r nr : nat) (w : ws) : ws :=
  let d := df w in
  let both (f : gset nat) := if decide (r ∈ f /\ nr ∈ f) then f else f ∖ {[r]} in
  setD (mkdiff (upd (upd (newp d) nr ∅) r ∅) (tracked d ∖ {[r]}) (both (extseen d)) (both (peseen d))) w.
(** y was inserted into P(q): remember it if q is tracked *)
Definition note_new (q y : nat) (w : ws) : ws :=
  let d := df w in setD (mkdiff (upd (newp d) q ({[y]} ∪ newp d q)) (tracked d) (extseen d) (peseen d)) w.

Section WSolver.
  Context (ord : forall A : Type, nat -> list A -> list A) (pick : nat -> gset nat -> nat) (MAX : nat).
  Context (G : prog) (c : cfg).

  (** 1619-1627, DifferencePropagation.hpp:70-81 AddToPointsToSet *)
  Definition add_pt (q y : nat) (w : ws) : ws * bool :=
    let '(p, b) := add_pointee q y (P w) in
    let w1 := setP p w in
    if dp c && b && bool_decide (q ∈ tracked (df w)) then (note_new q y w1, negb (bool_decide (y ∈ newp (df w) q)))
    else (w1, b).
  (** 442-449: the same inside PropagateNewPointees, with onNewPointee *)
  Definition insert_pt (q y : nat) (w : ws) : ws * bool :=
    let '(p, b) := add_pointee q y (P w) in
    let w1 := setP p w in
    ((if dp c && b && bool_decide (q ∈ tracked (df w)) then note_new q y w1 else w1), b).
  Fixpoint any_for (l : list nat) (f : nat -> ws -> ws * bool) (w : ws) : ws * bool :=
    match l with
    | [] => (w, false)
    | y :: l => let '(w1, b1) := f y w in let '(w2, b2) := any_for l f w1 in (w2, b1 || b2)
    end.
  Definition tickw (w : ws) : ws := setP (bump (P w)) w.
  Definition items (S : gset nat) (w : ws) : list nat := ord nat (tick (P w)) (elements S).
  Definition wfor {A} (l : list A) (f : A -> ws -> ws) (w : ws) : ws := fold_left (fun w x => f x w) l w.
  (** for (x : S.Items()) f(x) *)
  Definition wforset (S : gset nat) (f : nat -> ws -> ws) (w : ws) : ws := wfor (items S w) f (tickw w).

  Definition mark_ext' (i : nat) (w : ws) : ws * bool := let '(p, b) := mark_ext i (P w) in (setP p w, b).
  (** 1629-1640, DifferencePropagation.hpp:91-103, 423-457 MakePointsToSetSuperset *)
  Definition make_ss (superset subset : nat) (w : ws) : ws * bool :=
    let rsup := rt w superset in let rsub := rt w subset in
    if decide (rsup = rsub) then (w, false)
    else
      let '(w1, b1) := any_for (items (pts (P w) rsub) w) (insert_pt rsup) (tickw w) in
      if is_ext (P w1) rsub then let '(w2, b2) := mark_ext' rsup w1 in (w2, b1 || b2) else (w1, b1).

  (** 1642-1690 UnifyPointerObjects *)
  Definition wunify (a b : nat) (w : ws) : ws * nat :=
    let ra := rt w a in let rb := rt w b in
    if decide (ra = rb) then (w, ra) else
    let '(p, r) := unify ra rb (P w) in
    let nr := if decide (r = ra) then rb else ra in
    let t := tb w in
    let move (f : nat -> gset nat) := upd (upd f r (f r ∪ f nr)) nr ∅ in
    let w := setP p w in
    let w := setT (mktb (upd (upd (edges t) r ((edges t r ∪ edges t nr) ∖ {[r; nr]})) nr ∅) (move (stc t)) (move (ldc t)) (move (clc t))) w in
    let w := if dp c then on_unified r nr w else w in
    let w := if hcd c then
               match refroot (cy w) r, refroot (cy w) nr with
               | None, Some x => setC (mkcyc (upd (refroot (cy w)) r (Some x)) (checked (cy w)) (o2t (cy w)) (t2o (cy w))) w
               | _, _ => w
               end
             else w in
    (w, r).

  (** 1692-1700 RemoveAllPointees *)
  Definition wremove (i : nat) (w : ws) : ws :=
    let w := setP (remove_all_pointees i (P w)) w in if dp c then on_remove_all i w else w.

  (** 1734-1740 MarkAsPointeesEscaping, 1743-1748 MarkAsPointsToExternal *)
  Definition mark_pe_push (i : nat) (w : ws) : ws :=
    let r := rt w i in let '(p, b) := mark_pe r (P w) in if b then push r (setP p w) else setP p w.
  Definition mark_ext_push (i : nat) (w : ws) : ws :=
    let r := rt w i in let '(p, b) := mark_ext r (P w) in if b then push r (setP p w) else setP p w.

  (** ** LazyCycleDetection.hpp:64-132 OnPropagatedNothing *)
  (** 88-101: push the successors that are neither the subset nor visited. States: 0 not visited, 1 visited, 2 popped *)
  Definition lcd_push (w : ws) (st : nat -> nat) (subset : nat) (succs stack : list nat) : list nat :=
    fold_left (fun stk x => let r := rt w x in
                 if decide (r = subset) then stk else if decide (st r = 0) then r :: stk else stk) succs stack.
  (** 80-124 *)
  Fixpoint lcd_dfs (fuel : nat) (stack : list nat) (st : nat -> nat) (subset : nat) (w : ws) : option (ws * nat) :=
    match stack with
    | [] => Some (w, subset)
    | node :: rest =>
      match fuel with
      | 0 => None
      | S fuel =>
        if decide (st node = 0) then
          let st := upd st node 1 in
          lcd_dfs fuel (lcd_push w st subset (items (edges (tb w) node) w) stack) st subset w
        else if decide (st node = 1) then
          let st := upd st node 2 in
          if existsb (fun x => bool_decide (rt w x = subset)) (items (edges (tb w) node) w)
          then let '(w1, r) := wunify node subset w in lcd_dfs fuel rest st r w1
          else lcd_dfs fuel rest st subset w
        else lcd_dfs fuel rest st subset w
      end
    end.
  Definition lcd_fuel (w : ws) : nat := let n := npo (P w) in 2 + n + n * n.
  Definition lcd_nothing (subset superset : nat) (w : ws) : option (ws * option nat) :=
    if decide ((subset, superset) ∈ checked (cy w)) then Some (w, None) else
    let w := setC (mkcyc (refroot (cy w)) ({[(subset, superset)]} ∪ checked (cy w)) (o2t (cy w)) (t2o (cy w))) w in
    '(w1, s') ← lcd_dfs (lcd_fuel w) [superset] (fun _ => 0) subset w;
    Some (w1, if decide (rt w1 superset = s') then Some s' else None).

  (** ** OnlineCycleDetection.hpp:108-247 MaintainTopologicalOrder *)
  (** 145-164: push the successors not visited, in the range *)
  Definition ocd_push (w : ws) (lower upper : nat) (visited : gset nat) (succs : list nat) (stack : list (nat * bool)) : list (nat * bool) :=
    fold_left (fun stk x => let r := rt w x in
                 if decide (r ∈ visited) then stk else
                 match o2t (cy w) r with
                 | Some t => if decide (lower <= t /\ t <= upper) then (r, false) :: stk else stk
                 | None => stk
                 end) succs stack.
  (** 129-189 *)
  Fixpoint ocd_dfs (fuel : nat) (w : ws) (lower upper subset : nat) (stack : list (nat * bool)) (visited cycle : gset nat)
    : option (gset nat * gset nat) :=
    match stack with
    | [] => Some (visited, cycle)
    | (node, second) :: rest =>
      match fuel with
      | 0 => None
      | S fuel =>
        if (second : bool) then
          let cycle := if decide (node = subset) then {[node]} ∪ cycle
                       else if existsb (fun x => bool_decide (rt w x ∈ cycle)) (items (edges (tb w) node) w)
                       then {[node]} ∪ cycle else cycle in
          ocd_dfs fuel w lower upper subset rest visited cycle
        else if decide (node ∈ visited) then ocd_dfs fuel w lower upper subset rest visited cycle
        else
          let visited := {[node]} ∪ visited in
          ocd_dfs fuel w lower upper subset
            (ocd_push w lower upper visited (items (edges (tb w) node) w) ((node, true) :: rest)) visited cycle
      end
    end.
  (** 203-210: merge the nodes of the cycle; the accumulator is optUnificationRoot *)
  Fixpoint ocd_merge (l : list nat) (acc : option nat) (w : ws) : ws * option nat :=
    match l with
    | [] => (w, acc)
    | node :: l =>
      let w := setC (mkcyc (refroot (cy w)) (checked (cy w)) (upd (o2t (cy w)) node None) (t2o (cy w))) w in
      match acc with
      | None => ocd_merge l (Some node) w
      | Some r => let '(w1, r1) := wunify r node w in ocd_merge l (Some r1) w1
      end
    end.
  (** 217-262: the nodes from lowerTopo to upperTopo, first those not visited by the dfs,
      then the merged node, then the visited ones outside the cycle *)
  Definition ocd_place (lower upper : nat) (visited cycle : gset nat) (merged : option nat) (w : ws) : ws :=
    let occupied := omap (t2o (cy w)) (seq lower (S upper - lower)) in
    let outside := filter (fun x => x ∉ cycle) occupied in
    let l := filter (fun x => x ∉ visited) outside ++ option_list merged ++ filter (fun x => x ∈ visited) outside in
    let o := fold_left (fun o '(k, x) => upd o x (Some (lower + k))) (zip (seq 0 (length l)) l) (o2t (cy w)) in
    let t := fun i => if decide (lower <= i /\ i <= upper) then l !! (i - lower) else t2o (cy w) i in
    setC (mkcyc (refroot (cy w)) (checked (cy w)) o t) w.
  Definition ocd_maintain (subset superset : nat) (w : ws) : option (ws * option nat) :=
    upper ← o2t (cy w) subset; lower ← o2t (cy w) superset;
    if decide (upper <= lower) then Some (w, None) else
    '(visited, cycle) ← ocd_dfs (2 + 2 * npo (P w) + npo (P w) * npo (P w)) w lower upper subset [(superset, false)] ∅ ∅;
    let '(w1, merged) := ocd_merge (items cycle w) None (tickw w) in
    Some (ocd_place lower upper visited cycle merged w1, merged).

  (** 1750-1808 AddSupersetEdge *)
  Definition add_edge (superset subset : nat) (w : ws) : option ws :=
    let sup := rt w superset in let sub := rt w subset in
    if decide (sup = sub) then Some w
    else if pip c && (is_ext (P w) sup && has_pe (P w) sub) then Some w
    else if pip c && implicit (P w) sup then Some (mark_pe_push sub w)
    else if decide (sup ∈ edges (tb w) sub) then Some w
    else
      let w := setT (mktb (upd (edges (tb w)) sub ({[sup]} ∪ edges (tb w) sub)) (stc (tb w)) (ldc (tb w)) (clc (tb w))) w in
      '(w, o) ← (if ocd c then ocd_maintain sub sup w else Some (w, None));
      match (o : option nat) with
      | Some r => Some (push r w)
      | None =>
        let '(w, any) := make_ss sup sub w in
        let w := if (any : bool) then push sup w else w in
        if lcd c && negb (bool_decide (pset (P w) sub = ∅)) && negb any then
          '(w, o) ← lcd_nothing sub sup w;
          Some (match (o : option nat) with Some r => push r w | None => w end)
        else Some w
      end.
  (** 1810-1819 QueueNewSupersetEdge *)
  Definition queue_edge (superset subset : nat) (w : ws) : ws :=
    let sup := rt w superset in let sub := rt w subset in
    if decide (sup = sub \/ sup ∈ edges (tb w) sub) then w else setN ({[(sup, sub)]} ∪ newE w) w.
  Fixpoint flush_list (l : list (nat * nat)) (w : ws) : option ws :=
    match l with [] => Some w | (sup, sub) :: l => w1 ← add_edge sup sub w; flush_list l w1 end.
  (** 1821-1826 FlushNewSupersetEdges *)
  Definition flush (w : ws) : option ws :=
    w1 ← flush_list (ord (nat * nat) (tick (P w)) (elements (newE w))) (tickw w); Some (setN ∅ w1).

  (** 867-909 HandleEscapedFunction, with the pushing functors *)
  Definition wsome (l : list (option nat)) (f : nat -> ws -> ws) (w : ws) : ws :=
    wfor l (fun o w => match o with Some i => f i w | None => w end) w.
  Definition wescaped_function (f : nat) (w : ws) : ws :=
    let w := wsome (fargs G f) (fun i w => if is_ext (P w) i then w else mark_ext_push i w) w in
    wsome (fresults G f) (fun i w => if has_pe (P w) i then w else mark_pe_push i w) w.
  (** 604-660 with the pushing functors *)
  Definition wcalling_external (n : nat) (w : ws) : ws :=
    wsome (couts G n) mark_ext_push (wsome (cargs G n) mark_pe_push w).
  (** 666-750 with QueueNewSupersetEdge *)
  Definition wpairs (l1 l2 : list (option nat)) (f : nat -> nat -> ws -> ws) (w : ws) : ws :=
    wfor (zip l1 l2) (fun p w => match p with (Some i, Some j) => f i j w | _ => w end) w.
  Definition wcalling_lambda (n f : nat) (w : ws) : ws :=
    wpairs (couts G n) (fresults G f) queue_edge (wpairs (cargs G n) (fargs G f) (fun i j => queue_edge j i) w).

  (** DifferencePropagation.hpp:112-117 GetNewPointees; 139-147, 175-183 ...IsNew; 1850-1862, 1918-1920 *)
  Definition new_pointees (w : ws) (node : nat) : gset nat :=
    if dp c && bool_decide (node ∈ tracked (df w)) then newp (df w) node else pset (P w) node.
  Definition ext_new (w : ws) (node : nat) : bool :=
    is_ext (P w) node && negb (dp c && bool_decide (node ∈ extseen (df w))).
  Definition pe_new (w : ws) (node : nat) : bool :=
    has_pe (P w) node && negb (dp c && bool_decide (node ∈ peseen (df w))).

  (** 1864-1899: hybrid cycle detection; true: the work item is done *)
  Definition set_ref (node r : nat) (w : ws) : ws :=
    setC (mkcyc (upd (refroot (cy w)) node (Some r)) (checked (cy w)) (o2t (cy w)) (t2o (cy w))) w.
  Fixpoint unify_all (node : nat) (l : list nat) (root : nat) (w : ws) : ws * nat * bool :=
    match l with
    | [] => (w, root, false)
    | y :: l =>
      let r := rt w y in
      if decide (r = root) then unify_all node l root w
      else let '(w1, r1) := wunify root r w in let '(w2, r2, _) := unify_all node l r1 (set_ref node r1 w1) in (w2, r2, true)
    end.
  Definition hybrid (node : nat) (np : gset nat) (w : ws) : ws * bool :=
    match refroot (cy w) node with
    | None => (w, false)
    | Some r =>
      let '(w1, r1, any) := unify_all node (items np w) (rt w r) (set_ref node (rt w r) (tickw w)) in
      if (any : bool) then let w1 := push r1 w1 in (w1, bool_decide (r1 = rt w1 node)) else (w1, false)
    end.

  (** 1926-1951: the body of the loop over the escaping pointees *)
  Definition escape_pointee (y : nat) (w : ws) : ws :=
    let r := rt w y in
    let already := has_pe (P w) r && is_ext (P w) r in
    let '(p, b) := mark_escaped y (P w) in
    let w := setP p w in
    if (b : bool) then
      let w := match kindof (P w) y with FunctionMO => wescaped_function y w | _ => w end in
      if already then w else push r w
    else w.

  Definition erase_edge (node q : nat) (w : ws) : ws :=
    setT (mktb (upd (edges (tb w)) node (edges (tb w) node ∖ {[q]})) (stc (tb w)) (ldc (tb w)) (clc (tb w))) w.
  (** 1986-1994: propagate the new pointees and flag to one superset *)
  Definition prop_one (sp : nat) (np : gset nat) (nx : bool) (w : ws) : ws * bool :=
    let '(w, m1) := any_for (items np w) (add_pt sp) (tickw w) in
    let '(w, m2) := if nx then mark_ext' sp w else (w, false) in
    ((if (m1 || m2 : bool) then push sp w else w), m1 || m2).
  (** 1963-2007: propagate along all edges; true: the work item is done *)
  Fixpoint propagate (l : list nat) (node : nat) (np : gset nat) (nx pesc : bool) (w : ws) : option (ws * bool) :=
    match l with
    | [] => Some (w, false)
    | q :: l =>
      let sp := rt w q in
      if decide (sp = node) then propagate l node np nx pesc (erase_edge node q w)
      else if pip c && (pesc && is_ext (P w) sp) then propagate l node np nx pesc (erase_edge node q w)
      else
        let '(w, modified) := prop_one sp np nx w in
        if lcd c && negb (bool_decide (np = ∅)) && negb modified then
          '(w, o) ← lcd_nothing node sp w;
          match (o : option nat) with Some r => Some (push r w, true) | None => propagate l node np nx pesc w end
        else propagate l node np nx pesc w
    end.

  (** 2009-2020 stores, 2032-2041 loads, 2023-2030 and 2044-2051 scalars, 2054-2079 calls *)
  Definition do_stores (node : nat) (np : gset nat) (nx : bool) (w : ws) : ws :=
    wforset (stc (tb w) node) (fun v w =>
      let w := wforset np (fun y => queue_edge y v) w in if nx then mark_pe_push v w else w) w.
  Definition do_sas (node : nat) (np : gset nat) (w : ws) : ws :=
    if is_sas (P w) node && negb (has_pe (P w) node) then wforset np mark_ext_push w else w.
  Definition do_loads (node : nat) (np : gset nat) (nx : bool) (w : ws) : ws :=
    wforset (ldc (tb w) node) (fun v w =>
      let w := wforset np (fun y => queue_edge v y) w in if nx then mark_ext_push v w else w) w.
  Definition do_las (node : nat) (np : gset nat) (w : ws) : ws :=
    if is_las (P w) node && negb (has_pe (P w) node) then wforset np mark_pe_push w else w.
  Definition do_calls (node : nat) (np : gset nat) (nx : bool) (w : ws) : ws :=
    wforset (clc (tb w) node) (fun n w =>
      let w := wforset np (fun y w =>
                 match kindof (P w) y with
                 | ImportMO => wcalling_external n w
                 | FunctionMO => wcalling_lambda n y w
                 | _ => w
                 end) w in
      if nx then wcalling_external n w else w) w.
  (** 2081-2090 *)
  Definition finish (node : nat) (nx npe : bool) (w : ws) : ws :=
    if dp c then
      let w := clear_new node w in
      let w := if nx then ext_handled node w else w in
      if npe then pe_handled node w else w
    else w.

  (** 1901-1915: if propagating to a node with PointeesEscaping *)
  Definition pip_mark (node : nat) (w : ws) : ws :=
    if pip c && negb (has_pe (P w) node) && existsb (has_pe (P w)) (items (edges (tb w) node) w)
    then setP (mark_pe node (P w)).1 w else w.

  (** 1901-2095: HandleWorkItem after hybrid cycle detection *)
  Definition visit (node : nat) (np0 : gset nat) (nx : bool) (w : ws) : option ws :=
    let w := pip_mark node w in
    let pesc := has_pe (P w) node in
    let npe := pe_new w node in
    let w := if pesc then wforset (if npe then pset (P w) node else np0) escape_pointee w else w in
    let '(w, np) := if pip c && implicit (P w) node then (wremove node w, ∅) else (w, np0) in
    '(w, done) ← propagate (items (edges (tb w) node) w) node np nx pesc (tickw w);
    if (done : bool) then Some w else
    let w := do_stores node np nx w in
    let w := do_sas node np w in
    let w := do_loads node np nx w in
    let w := do_las node np w in
    let w := do_calls node np nx w in
    flush (finish node nx npe w).

  (** 1839-2095 HandleWorkItem *)
  Definition handle (node : nat) (w : ws) : option ws :=
    if is_root (P w) node then
      let np0 := new_pointees w node in
      let nx := ext_new w node in
      let '(w, done) := if hcd c then hybrid node np0 w else (w, false) in
      if (done : bool) then Some w else visit node np0 nx w
    else Some w.

  (** 2157-2163: while (worklist.HasMoreWorkItems()) HandleWorkItem(worklist.PopWorkItem()) *)
  Fixpoint run_worklist (fuel : nat) (w : ws) : option ws :=
    if decide (wl w = ∅) then Some w else
    match fuel with
    | 0 => None
    | S fuel =>
      let node := pick (tick (P w)) (wl w) in
      w1 ← handle node (tickw (setW (wl w ∖ {[node]}) w)); run_worklist fuel w1
    end.

  (** 2147-2152: while (worklist.HasWorkItem(node)) *)
  Fixpoint repeat_node (fuel : nat) (node : nat) (w : ws) : option ws :=
    if decide (node ∈ wl w) then
      match fuel with
      | 0 => None
      | S fuel => w1 ← handle node (tickw (setW (wl w ∖ {[node]}) w)); repeat_node fuel node w1
      end
    else Some w.
  (** 2122-2153: one traversal of the topological order; [cur] is the entry at the
      iterator, [l] the entries after it. nextNode is overwritten by the unified node. *)
  Fixpoint sweep (fuel : nat) (idx : nat -> nat) (cur : nat) (l : list nat) (w : ws) : option ws :=
    match l with
    | [] => repeat_node fuel cur w
    | next :: l =>
      if decide (idx cur = idx next) then
        let '(w1, u) := wunify cur next w in
        let old := if decide (u = cur) then next else cur in
        sweep fuel idx u l (push u (setW (wl w1 ∖ {[old]}) w1))
      else w1 ← repeat_node fuel cur w; sweep fuel idx next l w1
    end.
  (** 2110-2121: FindStronglyConnectedComponents on the superset edges, see Tarjan/Model.v *)
  Definition scc (w : ws) : option (Verif.Tarjan.Model.state) :=
    Verif.Tarjan.Model.run (npo (P w)) MAX (rt w) (fun v => items (edges (tb w) v) w) (fun _ => 0).
  (** 2099-2155: the topological traversals *)
  Fixpoint run_topological (fuel : nat) (w : ws) : option ws :=
    if decide (wl w = ∅) then Some w else
    match fuel with
    | 0 => None
    | S fuel' =>
      t ← scc w;
      w1 ← match rev (Verif.Tarjan.Model.rto t) with
           | [] => Some w
           | cur :: l => sweep fuel (Verif.Tarjan.Model.sccIndex t) cur l (tickw w)
           end;
      run_topological fuel' w1
    end.

  (** 1584-1614: the lookup tables *)
  Definition add_cstr (s : pos) (t : tables) (k : cstr) : tables :=
    let ins (f : nat -> gset nat) i x := upd f i ({[x]} ∪ f i) in
    match k with
    | CSuper a b => if decide (root s a = root s b) then t
                    else mktb (ins (edges t) (root s b) (root s a)) (stc t) (ldc t) (clc t)
    | CStore p v => mktb (edges t) (ins (stc t) (root s p) (root s v)) (ldc t) (clc t)
    | CLoad v p => mktb (edges t) (stc t) (ins (ldc t) (root s p) (root s v)) (clc t)
    | CCall p n => mktb (edges t) (stc t) (ldc t) (ins (clc t) (root s p) n)
    end.
  Definition init_tables (s : pos) (cs : list cstr) : tables :=
    fold_left (add_cstr s) cs (mktb (fun _ => ∅) (fun _ => ∅) (fun _ => ∅) (fun _ => ∅)).
  (** [ref] is RefNodeUnificationRoot_, filled in by PerformOfflineVariableSubstitution *)
  Definition init_ws (s : pos) (cs : list cstr) (ref : nat -> option nat) : ws :=
    mkws s (init_tables s cs) (mkdiff (fun _ => ∅) ∅ ∅ ∅) (mkcyc ref ∅ (fun _ => None) (fun _ => None)) ∅ ∅.

  (** OnlineCycleDetection.hpp:46-92 InitializeTopologicalOrdering; [k] is TopoOrderToObject_.size() *)
  Definition topo_append (k x : nat) (w : ws) : ws :=
    setC (mkcyc (refroot (cy w)) (checked (cy w)) (upd (o2t (cy w)) x (Some k)) (upd (t2o (cy w)) k (Some x))) w.
  Fixpoint ocd_place_all (idx : nat -> nat) (k cur : nat) (l : list nat) (w : ws) : ws :=
    match l with
    | [] => topo_append k cur w
    | next :: l =>
      if decide (idx cur = idx next) then let '(w1, u) := wunify cur next w in ocd_place_all idx k u l w1
      else ocd_place_all idx (S k) next l (topo_append k cur w)
    end.
  Definition ocd_init (w : ws) : option ws :=
    t ← scc w;
    Some (match rev (Verif.Tarjan.Model.rto t) with
          | [] => w
          | cur :: l => ocd_place_all (Verif.Tarjan.Model.sccIndex t) 0 cur l (tickw w)
          end).

  (** 1724-1730 and 1830: every root is pushed; the escaped functions inform their arguments and results *)
  Definition start_ws (w : ws) : ws :=
    let w := setW (list_to_set (filter (fun i => is_root (P w) i = true) (seq 0 (npo (P w))))) w in
    setP (escaped_functions G (P w)).1 w.

  (** 1547-2180 RunWorklistSolver; [topo]: the Workset policy *)
  Definition solve_worklist (topo : bool) (fuel : nat) (cs : list cstr) (ref : nat -> option nat) (s : pos) : option pos :=
    let w := init_ws s cs ref in
    w ← (if ocd c then ocd_init w else Some w);
    w ← (if (topo : bool) then run_topological fuel (start_ws w) else run_worklist fuel (start_ws w));
    Some (P w).
End WSolver.

(** 2198-2217: the combinations that SolveUsingWorklist accepts *)
Definition valid_cfg (topo : bool) (c : cfg) : Prop :=
  (topo = true -> ocd c = false /\ hcd c = false /\ lcd c = false) /\
  (ocd c = true -> hcd c = false /\ lcd c = false).
