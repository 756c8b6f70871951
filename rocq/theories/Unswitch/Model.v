(** Loop unswitching: jlm/llvm/opt/LoopUnswitching.cpp, with pullin_top of jlm/llvm/opt/pull.cpp, and the predicate correlations of jlm/llvm/opt/PredicateCorrelation.cpp.
    The nodes of a region are listed in the order in which TopDownConstTraverser visits them. *)
From stdpp Require Import base list gmap.
From Coq Require Import ZArith.
From Verif.LocalRegion Require Import Model.

(** a name that is not in the list *)
Definition bound (l : list oid) : nat := S (foldr max 0 l).
Definition region_bound (r : region) : nat := bound (rargs r ++ all_outs (rnodes r)).

(** the node indices of the inputs that use x, with the index of the input; how often x is a result *)
Definition node_uses (r : region) (x : oid) : list (nat * nat) :=
  mjoin (imap (fun i n => mjoin (imap (fun j y => if decide (y = x) then [(i, j)] else []) (nins n))) (rnodes r)).
Definition result_uses (r : region) (x : oid) : nat := length (filter (fun y => y = x) (rres r)).
Definition is_match (n : node) : bool := match nkind n with KSimple (OMatch _ _ _) => true | _ => false end.
Definition is_gamma (n : node) : bool := match nkind n with KGamma _ => true | _ => false end.

(** LoopUnswitching.cpp:82-125 IsUnswitchable: the index of the gamma node *)
Definition is_unswitchable (body : region) : option nat :=
  match rres body with
  | [] => None
  | p :: posts =>
      m ← owner (rnodes body) p;
      if negb (is_match m) then None
      else
        match node_uses body p, result_uses body p with
        | [(i, _)], 1 =>
            g ← rnodes body !! i;
            if is_gamma g && forallb (fun x => bool_decide (x ∈ rargs body) || bool_decide (x ∈ nouts g)) posts then Some i else None
        | _, _ => None
        end
  end.

(** gamma.cpp:259-275 AddEntryVar *)
Definition add_arg (r : region) : region := Region (rargs r ++ [region_bound r]) (rnodes r) (rres r).
Definition last_arg (r : region) : oid := List.last (rargs r) 0.
(** gamma.cpp:361-378 AddExitVar, with the value of the argument that was added last *)
Definition add_arg_res (r : region) : region := Region (rargs r ++ [region_bound r]) (rnodes r) (rres r ++ [region_bound r]).
(** LoopUnswitching.cpp:127-144: one loop variable whose post value does not come from the gamma is routed through it; the new output gets the name [next] *)
Definition route (g : node) (x next : oid) : node :=
  match nkind g with KGamma subs => Node (KGamma (map add_arg_res subs)) (nins g ++ [x]) (nouts g ++ [next]) | _ => g end.
Fixpoint route_all (g : node) (posts : list oid) (next : oid) : node * list oid :=
  match posts with
  | [] => (g, [])
  | x :: posts =>
      if decide (x ∈ nouts g) then let (g, posts) := route_all g posts next in (g, x :: posts)
      else let (g, posts) := route_all (route g x next) posts (S next) in (g, next :: posts)
  end.

(** region.cpp:787-805 computeDepthMap: one more than the deepest node used. [depths]: the depth of the node of every output, in the order of the list *)
Definition depth_of (D : gmap nat nat) (n : node) : nat := foldr max 0 (map (fun x => match D !! x with Some k => S k | None => 0 end) (nins n)).
Definition depths (l : list node) : gmap nat nat := foldl (fun D n => insert_all (nouts n) (replicate (length (nouts n)) (depth_of D n)) D) ∅ l.
(** LoopUnswitching.cpp:149-172 CollectPredicateNodes: all nodes except the gamma node, by depth *)
Definition collect (l : list node) (g : nat) : list node :=
  let D := depths l in
  mjoin (map (fun i => filter (fun n => depth_of D n = i) (delete g l)) (seq 0 (S (foldr max 0 (map (depth_of D) l))))).

(** MapOutputExitVar(x).branchResult[k]->origin(), with res the results of branch k *)
Definition pick (gouts res : list oid) (x : oid) : option oid := d ← list_find (fun y => y = x) gouts; res !! d.1.
(** LoopUnswitching.cpp:240-368, stages 1 to 8, with the index [e] of the exit subregion and [r] of the repetition subregion; the nodes that are copied are those of the subregions of the gamma node of the correlation, at index [c],
    arguments and results are those of the gamma node at index [g] (if they are not the same node, names in their subregions have to differ to mean anything); [next]: the first free name in the region of the loop.
    Result: the new nodes, the outputs that replace those of the loop, and the next free name. None: util::Error is thrown by a lookup, or an index is out of range *)
Definition unswitch (e r : nat) (c : nat) (next : nat) (tins : list oid) (body : region) (g : nat) : option (list node * list oid * nat) :=
  match rres body, rnodes body !! g with
  | p :: posts, Some (Node (KGamma subs) (q :: es) gouts) =>
      xe ← subs !! e; xr ← subs !! r;
      csubs ← (n ← rnodes body !! c; match nkind n with KGamma l => Some l | _ => None end);
      ce ← csubs !! e; cr ← csubs !! r;
      let preds := collect (rnodes body) g in
      let k := length es in
      (* stage 1 *)
      '(P1, s1, next) ← copy_nodes preds (insert_all (rargs body) tins ∅) next;
      (* stage 2: the new loop has the arguments 0..k-1 *)
      q' ← s1 !! q; es' ← mapM (fun x => s1 !! x) es;
      (* stage 3 *)
      '(R, s3, n3) ← copy_nodes (rnodes cr) (insert_all (tail (rargs xr)) (seq 0 k) ∅) k;
      (* stage 4 *)
      picks ← mapM (fun x => y ← pick gouts (rres xr) x; s3 !! y) posts;
      '(P2, s4, _) ← copy_nodes preds (insert_all (rargs body) picks ∅) n3;
      (* stage 5 *)
      pt ← s4 !! p; es4 ← mapM (fun x => s4 !! x) es;
      let body' := Region (seq 0 k) (R ++ P2) (pt :: es4) in
      (* stage 6 *)
      let exit := Region (seq 0 (S k)) [] (seq 1 k) in
      let rep := Region (seq 0 (S k)) [Node (KTheta body') (seq 1 k) (seq (S k) k)] (seq (S k) k) in
      let gamma := Node (KGamma (map (fun i => if decide (i = r) then rep else exit) (seq 0 (length subs)))) (q' :: es') (seq next k) in
      (* stage 7 *)
      '(X, s7, next') ← copy_nodes (rnodes ce) (insert_all (tail (rargs xe)) (seq next k) ∅) (next + k);
      (* stage 8 *)
      repl ← mapM (fun x => y ← pick gouts (rres xe) x; s7 !! y) posts;
      Some (P1 ++ gamma :: X, repl, next')
  | _, _ => None
  end.

(** PredicateCorrelation.cpp:31-75 extractConstantAlternatives: output index j of a gamma node *)
Definition constant_of (r : region) (x : oid) : option Z :=
  n ← owner (rnodes r) x; match nkind n with KSimple (OCtl k) => Some (Z.of_nat k) | KSimple (OInt _ v) => Some v | _ => None end.
Definition extract_constants (g : node) (x : oid) : option (list Z) :=
  match nkind g with
  | KGamma subs => d ← list_find (fun y => y = x) (nouts g); mapM (fun r => y ← rres r !! d.1; constant_of r y) subs
  | _ => None
  end.
(** PredicateCorrelation.hpp:38-60,135-240; the gamma node as an index in the body of the loop *)
Inductive correlation := ControlConstant (g : nat) (alternatives : list Z) | MatchConstant (g : nat) (m : list (Z * nat)) (d : nat) (alternatives : list Z) | MatchCorrelation (g : nat).
Definition owner_index (l : list node) (x : oid) : option nat := d ← list_find (fun n => x ∈ nouts n) l; Some d.1.
(** PredicateCorrelation.cpp:77-98 *)
Definition control_constant (body : region) : option correlation :=
  p ← head (rres body); i ← owner_index (rnodes body) p; g ← rnodes body !! i;
  alts ← (if is_gamma g then extract_constants g p else None); Some (ControlConstant i alts).
(** PredicateCorrelation.cpp:100-130 *)
Definition match_constant (body : region) : option correlation :=
  p ← head (rres body); m ← owner (rnodes body) p;
  match nkind m with
  | KSimple (OMatch _ mapping d) => x ← head (nins m); i ← owner_index (rnodes body) x; g ← rnodes body !! i; alts ← (if is_gamma g then extract_constants g x else None); Some (MatchConstant i mapping d alts)
  | _ => None
  end.
(** PredicateCorrelation.cpp:132-153: the first user of the match that is a gamma node, whatever it uses the match for *)
Definition match_correlation (body : region) : option correlation :=
  p ← head (rres body); m ← owner (rnodes body) p;
  if is_match m then d ← list_find (fun u => (is_gamma <$> rnodes body !! u.1) = Some true) (node_uses body p); Some (MatchCorrelation d.2.1) else None.
(** PredicateCorrelation.cpp:155-174 *)
Definition correlate (body : region) : option correlation :=
  match control_constant body with Some c => Some c | None => match match_constant body with Some c => Some c | None => match_correlation body end end.
(** MatchOperation::alternative (control.hpp:185-193) *)
Definition alternative_of (m : list (Z * nat)) (d : nat) (z : Z) : nat := match list_find (fun p => p.1 = z) m with Some (_, p) => p.2 | None => d end.
(** PredicateCorrelation.cpp:211-276 determineGammaSubregionRoles: exit and repetition subregion. The assertion that the gamma node has two subregions is not modelled *)
Definition roles (c : correlation) : option (nat * nat) :=
  match c with
  | ControlConstant _ [a; _] => Some (if decide (a = 0%Z) then (0, 1) else (1, 0))
  | MatchConstant _ m d [a; _] => Some (if decide (alternative_of m d a = 0) then (0, 1) else (1, 0))
  | MatchCorrelation _ => Some (0, 1)
  | _ => None
  end.
Definition corr_gamma (c : correlation) : nat := match c with ControlConstant g _ | MatchConstant g _ _ _ | MatchCorrelation g => g end.
(** LoopUnswitching.cpp:25-42: the default heuristic *)
Definition default_heuristic (body : region) (c : correlation) : bool :=
  forallb (fun n => match nkind n with KSimple _ => true | _ => false end) (delete (corr_gamma c) (rnodes body)).

(** gamma.cpp:408-475 RemoveEntryVars *)
Definition remove_at {A} (f : nat -> bool) (l : list A) : list A := mjoin (imap (fun i x => if f i then [] else [x]) l).
(** pull.cpp:69-83 isSingleSuccessor: all users of the outputs of the node at index i are inputs of the node at index g *)
Definition single_successor (body : region) (i g : nat) : bool :=
  match rnodes body !! i with
  | Some n => forallb (fun x => bool_decide (result_uses body x = 0) && forallb (fun u => bool_decide (u.1 = g)) (node_uses body x)) (nouts n)
  | None => false
  end.
(** pull.cpp:85-112 pullin_node and 114-131 cleanup, in one subregion: es are the entry variables, n the node. The copy gets as operands the arguments of the new entry variables for the operands of n,
    and replaces the arguments of the entry variables for outputs of n *)
Definition pull_into (es : list oid) (n : node) (r : region) : region :=
  let b := region_bound r in
  let k := length (nins n) in
  let new_args := seq b k in
  let new_outs := seq (b + k) (length (nouts n)) in
  let f a := match list_find (fun d => d.1 = a) (zip (tail (rargs r)) es) with
             | Some (_, (_, x)) => match list_find (fun y => y = x) (nouts n) with Some (j, _) => nth j new_outs 0 | None => a end
             | None => a end in
  Region (remove_at (fun i => match i with O => false | S i => match es !! i with Some x => bool_decide (x ∈ nouts n) | None => false end end) (rargs r) ++ new_args)
    (Node (nkind n) new_args new_outs :: map (divert_node f) (rnodes r)) (map f (rres r)).
Definition pull_node (n g : node) : node :=
  match g with
  | Node (KGamma subs) (q :: es) outs => Node (KGamma (map (pull_into es n) subs)) (q :: filter (fun x => x ∉ nouts n) es ++ nins n) outs
  | _ => g
  end.
(** pull.cpp:133-161 pullin_top; g: the index of the gamma node. Each round takes a node out of the region *)
Fixpoint find_pullable (body : region) (g : nat) (q : oid) (es : list oid) : option nat :=
  match es with
  | [] => None
  | x :: es =>
      match owner_index (rnodes body) x with
      | Some i => if negb (bool_decide (owner_index (rnodes body) q = Some i)) && single_successor body i g then Some i else find_pullable body g q es
      | None => find_pullable body g q es
      end
  end.
Fixpoint pullin_top (fuel : nat) (body : region) (g : nat) : region * nat :=
  match fuel with
  | O => (body, g)
  | S fuel =>
      match rnodes body !! g with
      | Some (Node (KGamma subs) (q :: es) outs) =>
          match find_pullable body g q es with
          | Some i =>
              match rnodes body !! i with
              | Some n =>
                  let nodes := <[g := pull_node n (Node (KGamma subs) (q :: es) outs)]> (rnodes body) in
                  pullin_top fuel (Region (rargs body) (delete i nodes) (rres body)) (if decide (i < g) then pred g else g)
              | None => (body, g)
              end
          | None => (body, g)
          end
      | _ => (body, g)
      end
  end.
(** LoopUnswitching.cpp:127-147 SinkNodesIntoGamma *)
Definition sink (body : region) (g : nat) : region * nat :=
  match rnodes body !! g, rres body with
  | Some n, p :: posts =>
      let (n', posts') := route_all n posts (region_bound body) in
      pullin_top (length (rnodes body)) (Region (rargs body) (<[g := n']> (rnodes body)) (p :: posts')) g
  | _, _ => (body, g)
  end.
(** LoopUnswitching.cpp:199-372 UnswitchLoop on a loop with inputs tins: the loop stays (with nodes sunk into the gamma node), or is replaced *)
Inductive result := Kept (body : region) | Replaced (news : list node) (repl : list oid) (next : nat) | Thrown.
Definition unswitch_loop (heuristic : region -> correlation -> bool) (next : nat) (tins : list oid) (body : region) : result :=
  match is_unswitchable body with
  | None => Kept body
  | Some g =>
      let (body, g) := sink body g in
      match correlate body with
      | None => Thrown (* JLM_ASSERT *)
      | Some c =>
          if heuristic body c then
            match roles c with
            | Some (e, r) => match unswitch e r (corr_gamma c) next tins body g with Some (news, repl, next) => Replaced news repl next | None => Thrown end
            | None => Thrown (* bad_optional_access *)
            end
          else Kept body
      end
  end.

(** PredicateCorrelation.cpp:349-404 handleControlConstantCorrelation and handleMatchConstantCorrelation: the loop takes the gamma node's predicate as its own *)
Definition take_predicate (body : region) (g : nat) : option region :=
  n ← rnodes body !! g; q ← head (nins n); Some (Region (rargs body) (rnodes body) (q :: tail (rres body))).
Definition redirect (body : region) : option region :=
  match correlate body with
  | Some (ControlConstant g alts) => if decide (alts = [0; 1]%Z) then take_predicate body g else None
  | Some (MatchConstant g m d alts) =>
      match alts with
      | [a; b] => if decide (alternative_of m d a = 0 /\ alternative_of m d b = 1) then take_predicate body g else None
      | _ => None
      end
  | _ => None
  end.
(** PredicateCorrelation.cpp:319-347 correlatePredicatesInTheta: until no predicate was redirected, or fuel runs out *)
Fixpoint correlate_theta (fuel : nat) (body : region) : region :=
  match fuel with
  | O => body
  | S fuel => match redirect body with Some body' => correlate_theta fuel body' | None => body end
  end.
(** PredicateCorrelation.cpp:176-198 computeMatchCorrelation for two gamma nodes: the users of the match, in order; the first that is not gamma1 is dereferenced as a gamma node *)
Inductive user := UGamma (g : nat) | UElse.
Inductive gg := NoCorrelation | Correlated (g : nat) | NullDereference.
Fixpoint gamma_gamma (g1 : nat) (users : list user) : gg :=
  match users with
  | [] => NoCorrelation
  | UGamma g :: l => if decide (g = g1) then gamma_gamma g1 l else Correlated g
  | UElse :: _ => NullDereference
  end.
