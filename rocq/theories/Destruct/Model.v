(** From a lambda node's region to a control flow graph.
    jlm/llvm/backend/RvsdgToIpGraphConverter.cpp *)
From stdpp Require Import base list gmap.
From Verif.Construct Require Import Model.
From Verif.Cfg Require Import Model.
From Verif.LocalRegion Require Import Model.

(** RvsdgToIpGraphConverter.cpp:25-106 Context: the basic blocks of the graph, LastProcessedBasicBlock, the next number of a basic block (BasicBlock::create) and of a variable (the results of an instruction).
    VariableMap_ is kept per region, names mean nothing outside *)
Record state := State { bl : gmap nat block; cur : nat; nb : nat; nv : nat }.
(** RvsdgToIpGraphConverter.cpp:51-65: GetVariable is the lookup, with a failed assertion if there is nothing; InsertVariable asserts that there is nothing yet; that the types are equal is not modelled *)
Notation vars := (gmap nat nat) (only parsing).
Fixpoint insert_vars (xs : list oid) (vs : list nat) (e : vars) : option vars :=
  match xs, vs with
  | [], [] => Some e
  | x :: xs, v :: vs => match e !! x with Some _ => None | None => insert_vars xs vs (<[x := v]> e) end
  | _, _ => None
  end.
(** basic-block.cpp:37-41 BasicBlock::create *)
Definition create_block (s : state) : state := State (<[nb s := Block [] []]> (bl s)) (cur s) (S (nb s)) (nv s).
(** cfg-node.cpp add_outedge: the new edge is the last one *)
Definition add_edge (n m : nat) (s : state) : state := State (alter (fun b => Block (code b) (succ b ++ [m])) n (bl s)) (cur s) (nb s) (nv s).
(** basic-block.hpp append_last; the variables that the instruction creates are numbered from nv on *)
Definition append (n : nat) (i : instr) (k : nat) (s : state) : state := State (alter (fun b => Block (code b ++ [i]) (succ b)) n (bl s)) (cur s) (nb s) (k + nv s).
(** SetLastProcessedBasicBlock *)
Definition set_cur (n : nat) (s : state) : state := State (bl s) n (nb s) (nv s).

(** RvsdgToIpGraphConverter.cpp:198-211 ConvertRegion, before and after the nodes: a new block after the last one *)
Definition next_block (s : state) : state := set_cur (nb s) (add_edge (cur s) (nb s) (create_block s)).
(** RvsdgToIpGraphConverter.cpp:316-342, the loop over the outputs of a gamma node: rs are the last blocks of the subregions and the variables of their results. Without subregions arguments[0] does not exist: None *)
Fixpoint gamma_outs (xb : nat) (rs : list (nat * list nat)) (i : nat) (outs : list oid) (e : vars) (s : state) : option (vars * state) :=
  match outs with
  | [] => Some (e, s)
  | x :: outs =>
      vs ← mapM (fun r => r.2 !! i) rs;
      v0 ← head vs;
      if forallb (fun v => bool_decide (v = v0)) vs then
        e ← insert_vars [x] [v0] e; gamma_outs xb rs (S i) outs e s
      else
        e ← insert_vars [x] [nv s] e; gamma_outs xb rs (S i) outs e (append xb (Phi (nv s) (zip (map fst rs) vs)) 1 s)
  end.
(** RvsdgToIpGraphConverter.cpp:347-357 RequiresSsaPhiOperation, theta.hpp:226-230 ThetaLoopVarIsInvariant: the loop variable is not invariant, and its pre has users *)
Definition used (r : region) (x : oid) : bool := bool_decide (x ∈ rres r) || existsb (fun n => bool_decide (x ∈ nins n)) (rnodes r).
Definition requires_phi (r : region) (pre post : oid) : bool := negb (bool_decide (post = pre)) && used r pre.
(** RvsdgToIpGraphConverter.cpp:370-382: the phis of the loop variables that need one are created without operands; the variables of the pres. [ls]: pre, post and the input's variable *)
Fixpoint theta_phis (r : region) (eb : nat) (ls : list (oid * oid * nat)) (s : state) : list nat * state :=
  match ls with
  | [] => ([], s)
  | (pre, post, v) :: ls =>
      if requires_phi r pre post then let '(vs, s') := theta_phis r eb ls (append eb (Phi (nv s) []) 1 s) in (nv s :: vs, s')
      else let '(vs, s') := theta_phis r eb ls s in (v :: vs, s')
  end.
(** RvsdgToIpGraphConverter.cpp:388-402: the phis get their operands, from the block before the loop and from the last one of the body. [ls]: pre, post and the input's variable; [posts]: the variables of the posts *)
Fixpoint fill_phis (r : region) (pb lb : nat) (ls : list (oid * oid * nat)) (posts : list nat) (c : list instr) : list instr :=
  match ls, posts with
  | (pre, post, v) :: ls, w :: posts =>
      if requires_phi r pre post then
        match c with
        | Phi x _ :: c => Phi x [(pb, v); (lb, w)] :: fill_phis r pb lb ls posts c
        | _ => c
        end
      else fill_phis r pb lb ls posts c
  | _, _ => c
  end.

Section Convert.
  (** the numbers of operations; SelectOperation, MatchOperation and the constants are operations like others *)
  Context (opcode : op -> nat).
  (** the nodes of a region one after another: RvsdgToIpGraphConverter.cpp:205-206. The order of the TopDownTraverser is the one in which the nodes are listed *)
  Definition convert_nodes (f : node -> vars -> state -> option (vars * state)) : list node -> vars -> state -> option (vars * state) :=
    fix go l e s := match l with [] => Some (e, s) | n :: l => '(e, s) ← f n e s; go l e s end.
  (** RvsdgToIpGraphConverter.cpp:290-314: the loop over the subregions of a gamma node. eb, xb: the blocks before and after; vs: the variables of the entry variables' inputs. The match content argument gets no
      variable. The result: the last blocks and the variables of the results, that the code looks up later *)
  Definition convert_subs (f : region -> vars -> state -> option (vars * state)) (eb xb : nat) (vs : list nat) : list region -> state -> option (list (nat * list nat) * state) :=
    fix go l s :=
      match l with
      | [] => Some ([], s)
      | r :: l =>
          e ← insert_vars (tail (rargs r)) vs ∅;
          let b := nb s in
          '(e, s) ← f r e (set_cur b (add_edge eb b (create_block s)));
          rs ← mapM (fun x => e !! x) (rres r);
          '(l', s') ← go l (add_edge (cur s) xb s);
          Some ((cur s, rs) :: l', s')
      end.
  Fixpoint convert_region (r : region) (e : vars) (s : state) {struct r} : option (vars * state) :=
    match r with
    | Region _ nodes _ => '(e, s) ← convert_nodes convert_node nodes e (next_block s); Some (e, next_block s)
    end
  with convert_node (n : node) (e : vars) (s : state) {struct n} : option (vars * state) :=
    match n with Node k ins outs => convert_kind k ins outs e s end
  with convert_kind (k : kind) (ins outs : list oid) (e : vars) (s : state) {struct k} : option (vars * state) :=
    match k with
    (* RvsdgToIpGraphConverter.cpp:259-276 ConvertSimpleNode *)
    | KSimple o =>
        ops ← mapM (fun x => e !! x) ins;
        let res := seq (nv s) (length outs) in
        e ← insert_vars outs res e;
        Some (e, append (cur s) (Tac (Op (opcode o) ops res)) (length outs) s)
    (* RvsdgToIpGraphConverter.cpp:278-345 ConvertGammaNode *)
    | KGamma subs =>
        match ins with
        | [] => None
        | p :: ins =>
            let eb := nb s in
            let xb := S (nb s) in
            let s := add_edge (cur s) eb (create_block (create_block s)) in
            pv ← e !! p;
            let s := append eb (Tac (BranchOn pv)) 0 s in
            vs ← mapM (fun x => e !! x) ins;
            '(rs, s) ← convert_subs convert_region eb xb vs subs s;
            '(e, s) ← gamma_outs xb rs 0 outs e s;
            Some (e, set_cur xb s)
        end
    (* RvsdgToIpGraphConverter.cpp:359-411 ConvertThetaNode *)
    | KTheta b =>
        let pb := cur s in
        let eb := nb s in
        let s := next_block s in
        vs ← mapM (fun x => e !! x) ins;
        let ls := zip (zip (rargs b) (tail (rres b))) vs in
        let '(pres, s) := theta_phis b eb ls s in
        eb' ← insert_vars (rargs b) pres ∅;
        '(e', s) ← convert_region b eb' s;
        let lb := cur s in
        posts ← mapM (fun x => e' !! x) (tail (rres b));
        e ← insert_vars outs posts e;
        let s := State (alter (fun c => Block (fill_phis b pb lb ls posts (code c)) (succ c)) eb (bl s)) (cur s) (nb s) (nv s) in
        p ← head (rres b);
        pv ← e' !! p;
        let s := append lb (Tac (BranchOn pv)) 0 s in
        let xb := nb s in
        Some (e, set_cur xb (add_edge lb eb (add_edge lb xb (create_block s))))
    end.

  (** RvsdgToIpGraphConverter.cpp:213-257 CreateControlFlowGraph before straightening: the graph and the variables of the results. [params]: the variables of the region's arguments, those of the function arguments
      (fresh ones) and of the context variables (found outside); next: a number that no variable has *)
  Definition create_graph (r : region) (params : list nat) (next : nat) : option (cfg * list nat) :=
    let eb := 2 in
    e ← insert_vars (rargs r) params ∅;
    '(e, s) ← convert_region r e (State {[eb := Block [] []]} eb (S eb) next);
    results ← mapM (fun x => e !! x) (rres r);
    Some (Cfg (bl (add_edge (cur s) exit s)) eb, results).
  (** RvsdgToIpGraphConverter.cpp:213-257 CreateControlFlowGraph; order: the order in which straighten visits the blocks *)
  Definition create_cfg (order : cfg -> list nat) (r : region) (params : list nat) (next : nat) : option (cfg * list nat) :=
    '(g, results) ← create_graph r params next; g ← straighten (order g) g; Some (g, results).
End Convert.
