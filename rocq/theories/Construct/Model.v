(** From a function's aggregation tree to its lambda node: variable annotation and conversion.
    jlm/llvm/ir/aggregation.hpp, jlm/llvm/ir/Annotation.cpp, jlm/llvm/frontend/InterProceduralGraphConversion.cpp *)
From stdpp Require Import base list list_numbers fin_sets gmap.
From Verif.Rvsdg Require Import Model.

(** llvm/ir/variable.hpp: a variable is identified by a number, as in C++ by its address *)
Notation var := nat (only parsing).
(** llvm/ir/tac.hpp ThreeAddressCode: AssignmentOperation (operands: the assigned variable, the value), SelectOperation (condition, value if true, value
    if false; result), BranchOperation (the control variable), any other operation (operands, results) *)
Inductive tac := Assign (l r : var) | Select (p a b r : var) | BranchOn (p : var) | Op (op : nat) (ops res : list var).
(** llvm/ir/aggregation.hpp:170-: BasicBlockAggregationNode, LinearAggregationNode, BranchAggregationNode, LoopAggregationNode.
    The entry and exit nodes are the first and last child of the root, which is linear; they are in [function]. *)
Inductive tree := Block (l : list tac) | Linear (l : list tree) | Branch (l : list tree) | Loop (b : tree).
Record function := Function { fargs : list var; fresults : list var; fbody : list tree }.

(** Annotation.hpp:243-: ReadSet, AllWriteSet, FullWriteSet *)
Record sets := Sets { reads : gset nat; all_writes : gset nat; full_writes : gset nat }.
(** Annotation.cpp:226-269, one iteration of the loop over the instructions of a basic block, from the last to the first *)
Definition tac_reads (x : tac) : list var := match x with Assign l r => [r] | Select p a b r => [p; a; b] | BranchOn p => [p] | Op _ ops _ => ops end.
Definition tac_writes (x : tac) : list var := match x with Assign l r => [l] | Select p a b r => [r] | BranchOn p => [] | Op _ _ res => res end.
Definition tac_sets (x : tac) (s : sets) : sets :=
  Sets (reads s ∖ list_to_set (tac_writes x) ∪ list_to_set (tac_reads x)) (all_writes s ∪ list_to_set (tac_writes x)) (full_writes s ∪ list_to_set (tac_writes x)).
Definition no_sets : sets := Sets ∅ ∅ ∅.
Definition block_sets (l : list tac) : sets := foldr tac_sets no_sets l.
(** Annotation.cpp:271-292, one iteration of the loop over the children, from the last to the first *)
Definition seq_sets (c s : sets) : sets := Sets (reads s ∖ full_writes c ∪ reads c) (all_writes s ∪ all_writes c) (full_writes s ∪ full_writes c).
(** Annotation.cpp:294-319 *)
Definition case_sets (s c : sets) : sets := Sets (reads s ∪ reads c) (all_writes s ∪ all_writes c) (full_writes s ∩ full_writes c).
(** Annotation.cpp:199-368 AnnotateReadWrite. A branch has children, otherwise child(0) fails an assertion; [tree_ok] demands it *)
Fixpoint tree_sets (t : tree) : sets :=
  match t with
  | Block l => block_sets l
  | Linear l => foldr seq_sets no_sets (map tree_sets l)
  | Branch l => match map tree_sets l with [] => no_sets | s :: l => fold_left case_sets l s end
  | Loop b => tree_sets b
  end.

(** the second part of the annotation. [ABranch ins outs]: InputVariables, OutputVariables; [ALoop vs]: LoopVariables *)
Inductive atree := ABlock (l : list tac) | ALinear (l : list atree) | ABranch (ins outs : gset nat) (l : list atree) | ALoop (vs : gset nat) (b : atree).
(** Annotation.cpp:407-420: the children from the last to the first *)
Definition annotate_seq (f : tree -> gset nat -> atree * gset nat) : list tree -> gset nat -> list atree * gset nat :=
  fix go l w := match l with [] => ([], w) | t :: l => let '(l', w) := go l w in let '(t', w) := f t w in (t' :: l', w) end.
(** Annotation.cpp:373-489 AnnotateDemandSet: the working set before, and the annotations *)
Fixpoint annotate (t : tree) (w : gset nat) : atree * gset nat :=
  match t with
  | Block l => (ABlock l, w ∖ full_writes (tree_sets t) ∪ reads (tree_sets t))
  | Linear l => let '(l', w') := annotate_seq annotate l w in (ALinear l', w' ∖ full_writes (tree_sets t) ∪ reads (tree_sets t))
  | Branch l =>
      let outs := w ∩ all_writes (tree_sets t) in
      let ins := outs ∖ full_writes (tree_sets t) ∪ reads (tree_sets t) in
      (ABranch ins outs (map (fun c => (annotate c outs).1) l), w ∪ ins)
  | Loop b => let vs := w ∪ reads (tree_sets t) in let '(b', w') := annotate b vs in (ALoop vs b', w')
  end.
(** Annotation.cpp:491-501 Annotate, with the entry and exit nodes (373-394): the working set starts with the results; the set that is left at the entry
    is its TopSet. *)
Definition annotate_function (f : function) : list atree * gset nat :=
  let '(l, w) := annotate_seq annotate (fbody f) (list_to_set (fresults f)) in (l, w ∖ list_to_set (fargs f)).

(** Conversion *)
(** InterProceduralGraphConversion.cpp:31-57 VariableMap: [None]: the assertion in lookup fails, and at throws *)
Notation vmap := (gmap nat nat) (only parsing).
(** outputs and nodes are created with fresh numbers *)
Definition fresh (k s : nat) : list nat * nat := (seq s k, s + k).
Definition add_all (vs : list var) (os : list nat) (m : gmap nat nat) : gmap nat nat := foldl (fun m p => <[p.1 := p.2]> m) m (zip vs os).

Section Convert.
  (** the order in which the elements of a std::unordered_set are visited *)
  Context (order : gset nat -> list nat).
  (** the operation UndefValueOperation of the type of the variable; the MatchOperation that maps 1 to 1 and everything else to 0 *)
  Context (undef : nat -> nat) (match1 : nat).

  (** InterProceduralGraphConversion.cpp:468-576 ConvertThreeAddressCode: the nodes are created at the end of the region *)
  Definition convert_tac (x : tac) (m : gmap nat nat) (s : nat) : option (list node * gmap nat nat * nat) :=
    match x with
    | Assign l r => o ← m !! r; Some ([], <[l := o]> m, s)
    | Select p a b r =>
        op ← m !! p; ob ← m !! b; oa ← m !! a;
        (* s: the match node; s + 1: its output; s + 2: the gamma; then the arguments of the two branches and the output *)
        Some ([Node s (Simple match1) [op] [s + 1] [];
               Node (s + 2) Gamma [s + 1; ob; oa] [s + 9] [Region [s + 3; s + 4; s + 5] [s + 4] []; Region [s + 6; s + 7; s + 8] [s + 8] []]],
              <[r := s + 9]> m, s + 10)
    | BranchOn p => Some ([], m, s)
    | Op op ops res =>
        os ← mapM (fun v => m !! v) ops;
        let '(outs, s') := fresh (length res) (S s) in
        Some ([Node s (Simple op) os outs []], add_all res outs m, s')
    end.
  Fixpoint convert_block (l : list tac) (m : gmap nat nat) (s : nat) : option (list node * gmap nat nat * nat) :=
    match l with
    | [] => Some ([], m, s)
    | x :: l => '(ns, m, s) ← convert_tac x m s; '(ns', m, s) ← convert_block l m s; Some (ns ++ ns', m, s)
    end.
  (** InterProceduralGraphConversion.cpp:683-692, 800-808: the last basic block in a subtree; the branch instruction at its end *)
  Fixpoint last_block (t : atree) : option (list tac) :=
    match t with
    | ABlock l => Some l
    | ALinear l | ABranch _ _ l => match last (map last_block l) with Some b => b | None => None end
    | ALoop _ b => last_block b
    end.
  Definition predicate_of (t : atree) : option var := b ← last_block t; match last b with Some (BranchOn p) => Some p | _ => None end.
  (** InterProceduralGraphConversion.cpp:663-672: the children of a linear node, each with its predecessor *)
  Definition convert_seq (f : option atree -> atree -> gmap nat nat -> nat -> option (list node * gmap nat nat * nat)) :
      option atree -> list atree -> gmap nat nat -> nat -> option (list node * gmap nat nat * nat) :=
    fix go prev l m s := match l with
    | [] => Some ([], m, s)
    | t :: l => '(ns, m, s) ← f prev t m s; '(ns', m, s) ← go (Some t) l m s; Some (ns ++ ns', m, s)
    end.
  (** InterProceduralGraphConversion.cpp:702-740: the branches. [vs]: the input variables; [xs]: the output variables *)
  Definition convert_cases (f : option atree -> atree -> gmap nat nat -> nat -> option (list node * gmap nat nat * nat)) (vs xs : list var) :
      list atree -> nat -> option (list region * nat) :=
    fix go l s := match l with
    | [] => Some ([], s)
    | t :: l =>
        let '(args, s) := fresh (length vs) (S s) in
        '(ns, m, s') ← f None t (add_all vs args ∅) s;
        res ← mapM (fun v => m !! v) xs;
        '(rs, s'') ← go l s';
        Some (Region (s - S (length vs) :: args) res ns :: rs, s'')
    end.
  (** InterProceduralGraphConversion.cpp:757-780: the loop variables without a value get an undefined one, created in the parent region *)
  Fixpoint define_missing (vs : list var) (m : gmap nat nat) (s : nat) : list node * gmap nat nat * nat :=
    match vs with
    | [] => ([], m, s)
    | v :: vs => match m !! v with
                 | Some _ => define_missing vs m s
                 | None => let '(ns, m, s') := define_missing vs (<[v := S s]> m) (S (S s)) in (Node s (Simple (undef v)) [] [S s] [] :: ns, m, s')
                 end
    end.
  (** InterProceduralGraphConversion.cpp:650-857 ConvertAggregationNode; [prev]: the sibling before (only used in a linear node, 681: the parent of a branch must be one) *)
  Fixpoint convert (prev : option atree) (t : atree) (m : gmap nat nat) (s : nat) : option (list node * gmap nat nat * nat) :=
    match t with
    | ABlock l => convert_block l m s
    | ALinear l => convert_seq convert None l m s
    | ABranch ins outs l =>
        p ← prev ≫= predicate_of; op ← m !! p;
        os ← mapM (fun v => m !! v) (order ins);
        '(rs, s') ← convert_cases convert (order ins) (order outs) l (S s);
        let '(xs, s') := fresh (length (order outs)) s' in
        Some ([Node s Gamma (op :: os) xs rs], add_all (order outs) xs m, s')
    | ALoop vs b =>
        let '(us, m, s) := define_missing (order vs) m s in
        os ← mapM (fun v => m !! v) (order vs);
        let '(args, s') := fresh (length (order vs)) (S s) in
        '(ns, mb, s') ← convert None b (add_all (order vs) args ∅) s';
        posts ← mapM (fun v => mb !! v) (order vs);
        p ← predicate_of b; op ← mb !! p;
        let '(xs, s') := fresh (length (order vs)) s' in
        Some (us ++ [Node s Theta os xs [Region args (op :: posts) ns]], add_all (order vs) xs m, s')
    end.
  (** InterProceduralGraphConversion.cpp:585-630: the variables of TopSet: context variables for those of the module, undefined values for the others.
      The result: the inputs and arguments of the context variables, the nodes *)
  Fixpoint entry_vars (outer : gmap nat nat) (vs : list var) (m : gmap nat nat) (s : nat) : list nat * list nat * list node * gmap nat nat * nat :=
    match vs with
    | [] => ([], [], [], m, s)
    | v :: vs => match outer !! v with
                 | Some o => let '(ins, args, ns, m, s') := entry_vars outer vs (<[v := s]> m) (S s) in (o :: ins, s :: args, ns, m, s')
                 | None => let '(ins, args, ns, m, s') := entry_vars outer vs (<[v := S s]> m) (S (S s)) in (ins, args, Node s (Simple (undef v)) [] [S s] [] :: ns, m, s')
                 end
    end.
  (** InterProceduralGraphConversion.cpp:585-648 and 911-942: the lambda node of a function. [outer]: the outputs of the other functions and global variables of the module *)
  Definition convert_function (f : function) (outer : gmap nat nat) (s : nat) : option (node * nat) :=
    let '(body, top) := annotate_function f in
    let '(args, s1) := fresh (length (fargs f)) (S (S s)) in
    let '(ins, cargs, us, m, s2) := entry_vars outer (order top) (add_all (fargs f) args ∅) s1 in
    '(ns, m, s3) ← convert_seq convert None body m s2;
    res ← mapM (fun v => m !! v) (fresults f);
    Some (Node s (Lambda (length (fargs f))) ins [S s] [Region (args ++ cargs) res (us ++ ns)], s3).
  (** a module with one function; everything else it uses is imported: [imports] are the variables, in this order *)
  Definition convert_module (f : function) (imports : list var) : option region :=
    let '(args, s) := fresh (length imports) 0 in
    '(n, s') ← convert_function f (add_all imports args ∅) s;
    Some (Region args (nouts n) [n]).
End Convert.
