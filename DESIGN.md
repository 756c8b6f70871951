# Formal model of phate/jlm in Rocq (Coq 8.16.1)

## Method

* One directory per area under `rocq/theories/`. Each area has
  `Model.v` (executable Gallina transcription of the C++; every definition cites the file and lines it
  models), `Proofs*.v` (lemmas), and `Properties*.v` (the property theorems, the findings as `_refuted`
  theorems, and `Example`s that meet the hypotheses).
  Small independent specifications live in `Spec.v` (or at the top of `Properties.v`).
* Loops become structural recursion, folds, or fuel recursion returning an explicit error value; the
  theorems exclude or prove impossible the out-of-fuel case.
* Undefined behaviour and exceptions are explicit outcomes (`option`/dedicated constructors).
* Iteration order over `std::unordered_*` containers is treated as an arbitrary order: models take the
  order as an input (a list / permutation) or the theorem quantifies over it.
* Properties which are false of the code are proved as `..._refuted` with a concrete witness, next to the
  strongest true statement that we could prove.

## Trusted base

* Coq 8.16.1's kernel (and `vm_compute`), plus `coqchk`.
* The reading of C++ in the comments of the `Model.v` files: nothing ties the model to the code mechanically.
* std++ data structures (proved, axiom free).
* Axioms: none. `Print Assumptions` answers "Closed under the global context" for every theorem named in
  MANIFEST.json. (vcheck lists `Coq.ssr.ssrunder` as a library axiom because std++ loads ssreflect; no theorem uses it.)

## Plan per property

| id | model | proof plan |
|----|-------|-----------|
| C01, C02 | heap of set records (size, next, parent), root set; `root` with its own pointer updates as a fuelled loop | refinement to a partition (list of classes); invariant: parent chains with doubling sizes, circular next chains |
| C03, C04 | sets as duplicate free lists in arbitrary iteration order | membership characterisation; C04 is refuted by a witness |
| C05 | pair of association maps | invariant "mutually inverse" over op sequences |
| C06, C07 | the four worklists, each as in the code (OnList set + stack/queue, LastFire map + priority queue) | refinement to an abstract pending-set with history |
| C08 | the explicit-stack Tarjan loop, with fuel | loop invariant; correctness for all graphs |
| C09, C10 | Z arithmetic with explicit 64-bit wrap and undefined shifts | arithmetic |
| C11-C16 | lists of 4-valued bits, lsb first, every function transcribed | value homomorphisms `val : list bit -> Z`; soundness by concretisation relation |
| C17-C19 | a region as finite maps of nodes, inputs, outputs, user lists, top/bottom lists; editing ops as a step function | invariant over op lists; prune by measure |
| C20-C22 | the tracker (states map, frontier list) on top of the region model | invariant relating activation counts to visited predecessors |
| C23 | `niterations` on top of the bitstring model, do-while loop semantics | refuted in general, proved under the guard where it is right |
| C24 | the BFS of SortNodesTopological | exactly-once proved, dependency order refuted + proved under guard |
| C25 | list-of-char functions | algebraic laws |
| C26 | loop unrolling on the same loop model | equality of iteration sequences |
| C27, C28 | PointerObjectSet, the four constraints, escape propagation and the naive solver as state transformers reporting changes | a round without changes is closed; closed states are solutions; every step only adds facts of any solution; a count of facts bounds the rounds |
| C29, C30 | union-find with ranks, UnifyPointerObjects, NormalizeConstraints | solutions before/after are related for all constraint lists |
| C31 | the loop bodies of ApplyDirectly | frame lemma per body; witness for the call constraint |
| C32 | the worklist solver with all its template parameters as a state transformer on (objects, tables, difference tracking, cycle detection data, worklist, queued edges) | invariant: a root not in the worklist has informed its constraints of all its pointees and flags, one in it of those already seen; kept by simple steps, unification and visits; empty worklist + invariant = solution |
| C33 | same model, hybrid cycle detection off | second invariant, for an arbitrary solution U: every recorded pointee, flag, edge and table entry is justified by U and unified objects are equal in U; edges on a cycle force equality, so LCD/OCD/topological unification keep it; hence result ≤ U; with C32 and the naive solver's least solution, equality |
| C34-C36 | RVSDG modules as trees of regions with numbered outputs; a defining equation (`view`) per output and the least solution of the equations as semantics; marking with fuel, sweeping bottom-up | fuel suffices by counting unmarked outputs; marks are closed under dependence; the equations of the new module are related to those of the old one (removed entry/loop variables are not live, memory states of removed loads are followed to their origin); induction on the least solution |
| C37, C38 | `Ivr/Model.v`: the pass on the same RVSDG model, visit order of the nodes of a region an arbitrary function; not modelled: call redirection, theta/gamma correlation redirection | `Rvsdg/Chase.v`: an inductive relation "output x only passes on the value of y" (exit variable, loop variable, load state); equations of the new module agree with the old ones up to it, simulation `Rvsdg/Sim.v`; completeness by an invariant over the visits; order independence refuted by a concrete module |
| C39 | `Ivr/GammaModel.v`: the reduction with its guard as written, null dereference explicit | refuted on concrete modules; under the intended guard proved with `chase_refines` |
| C40 | `Cne/Model.v`: marking (congruence sets as list of leaders and map, partitioning of arguments, gamma exit variables, the theta loop with fuel) and diverting; the unordered containers are an arbitrary `choose` | `Just.v`: when a congruence is justified; `mark_ok`: induction over the module with a precondition that survives re-marking; `cong_refines`: simulation on the equations of `Rvsdg/Spec.v`; refuted in general on a concrete loop (`Bug.v`) |
| C41 | the same model | `TotalSimple`, `TotalOuts`, `TotalMain`: in a loop-free module every output is marked when it is needed and unmarked when it is visited, so no exception; every visited computation has a unique representative that leads; `computed_once` in `Spec.v` is stated on the resulting module only. Partial: loops excluded, and branch results that are the match content (`cne_content_crash`) |
| C42-C45 | `BinOp/Model.v`: outputs as expressions, the reduction helpers as loops with fuel, the normalizations of binary.cpp, slice.cpp, concat.cpp and the table of foldBinaryOperation on top of the Bits model | invariants of the loops (value of the operand list up to permutation), well-founded induction on (length, distance) for termination, induction on expressions; C45 from the exactness theorems of Bits. Assertion failures are `None` |
| C46, C47 | `Types/Model.v`: types as a tree; sizes with wrapping size_t arithmetic and the rounding functions of MathUtil, undefined behaviour as `None`; equality and hash with the standard hashes as parameters | induction on types: the wrapped computation equals the one in plain arithmetic (`plain` in Spec.v) whenever it stays below 2^60; then order, alignment and minimality of offsets by induction on the field list |
| C48-C50 | `Trace/Model.v`: the two OutputTracers over the RVSDG model, with cache, region to stay in and all options; failed assertions as `Failed` | executions are stacks of (region, argument values) (`point`); each step keeps the value (`moves`), theta steps by induction over the iterations; a rank (post-order position) decreases at every step, which bounds the walk and the nested walks; the cached run is compared with the uncached one by a fuel-monotonicity argument |
| C51-C53 | Construct | Annotation sets and demand sets of aggregation trees, conversion to a lambda node (map from variables to outputs, gammas, thetas, undefined values, context variables) as functions; an imperative semantics of the trees; simulation by induction on the tree and on the loop executions; C53 refuted in general, proved under a condition on linear nodes |
| C54-C58 | Cfg | Control flow graphs as finite maps from node numbers to instructions and sinks; straighten, purge, prune and destruct_ssa with the visiting order of the unordered sets as a parameter; small-step paths as an inductive relation with simultaneous phis; simulation in both directions, per visited block, by induction on paths; validity as an invariant. C58: refuted by exploring all orders on two graphs |
| C59-C61 | Aggregation | The graph and AggregationMap as one finite map from node numbers to a subtree and sinks; find_sccs is a parameter with the specification of strongly connected components (an executable one is shown to exist); executions of a graph of trees as an inductive relation. An invariant of the subgraph that is being aggregated (single entry, single exit, repetition edges of the enclosing loops removed but remembered) is kept by each reduction, each of which preserves the executions in both directions; induction on fuel for the nested recursion. C61 composes this with C51/C52 |
| C62-C69 | Memory | Outputs of graphs of simple nodes as terms (node identity, operation, operands, index); every normalization a function from operands to a replacement list, std::nullopt or a failed assertion, in the order of NodeReduction. Spec: a memory state gives for every byte the number of ordered writes and the last byte written; joins keep the most recent write, loads read the join, stores write on top of the join. Algebra of the left-biased maximum (associative, absorbs older knowledge) gives deduplication, flattening and dropping; congruence of evaluation gives C62; arbitrary machine (values, encodings), environment, hash orders. Refutations by concrete graphs |
| C70-C75 | ScalarEvolution | SCEV terms as an inductive type, a denotation relation giving the possible values of a term at an execution point modulo 2^w; folding rules by induction on size/fuel with the sum/product identities of chain recurrences; loop analysis by induction on the dependency order; refutations by evaluating concrete loops |
| C76-C77 | ScalarEvolution (Trip*.v) | integer model of binary64 division, ceil and sqrt (round to nearest even); exactness lemmas below 2^53 / 2^52; counts compared with the first iteration in which the comparison of w-bit values fails |
| C78-C82 | AliasQuery | executions as histories of pointer evaluations (object, offset) with a current moment; tracing by induction on fuel with the invariant that every origin of the current pointer is in the collection; query by case analysis on the filters; GEP offsets against the plain layout of Types; points-to graph queries against any graph that describes the execution |
| C83-C88 | LocalRegion, Unswitch | regions as nested lists of nodes with local names, relational big-step semantics (values for all names such that every node is right; loops unrolled inductively); unswitching by the invariant that the repeated body started from the repetition subregion equals the next iteration; sinking step by step; correlations by inversion of the gamma node |
| C89-C90 | IfConv | on the LocalRegion semantics: each new select has the value of the output it replaces, from the inversion of gamma and match; acyclicity, names and control types as invariants of the pass over all gamma nodes; completeness by an invariant on the gamma nodes that were visited |
| C91-C92 | Sinking | on the LocalRegion semantics with nested regions: each node that is pulled in keeps the relation of arguments and results (Unswitch lemmas for pullin_node), names, acyclicity and well-formedness of all nested regions; completeness by an invariant: what is settled stays settled under later moves, at all levels; termination by the number of nodes (`extent`) |
| C93-C94 | Hoisting | on the LocalRegion semantics: induction on the path between target region and node; per level, a gamma or theta node with additional arguments computes the same (loops by induction on the iterations, with the operands of the hoisted node as an invariant); well-formedness with an explicit new order of the names; congruence for targets that are nested themselves; refutations with an evaluator (`LocalRegion/Run.v`) proved sound and deterministic |
| C95-C97 | Destruct | relational semantics of regions against the small-step runs of control flow graphs: for every piece that is converted, forward and backward simulation relative to any final graph that contains the piece (`correct`), composed along the list of nodes; induction on nested nodes and regions, on the iterations of loops forward and on the length of the run backward; validity by an invariant on blocks that are still open, have phis without operands or no predecessor yet (`V`); success by the exact domain of the variable map, in both directions |
| C98-C99 | Inlining | relational semantics of regions with an uninterpreted meaning of the operations, of which it is only known that the call does what the callee's body does and that a barrier hands on its operand; forward and backward construction of valuations for the splice, lifted through nested nodes by induction on the path; well-formedness by the ranks of acyclic regions (the callee's ranks are placed between those of the call's operands and outputs); success by the domain of the substitution |
| C100-C101 | Domtree | walks from the entry as the definition of dominance; invariants of the iteration of Cooper, Harvey and Kennedy: candidates come earlier in reverse postorder, every strict dominator of a node dominates its candidate; intersect computes the closest common candidate; at the fixed point induction over walks; termination: the chains of candidates shrink from pass to pass (the state in the middle of a pass is described by the states before and after it, three passes are compared), so that a measure decreases; postorder by an invariant on visited nodes |
| C102-C103 | PredTrace | executions as one activation per region (values of outputs, entered regions); invariant of the trace: every visited input's range contains its value, everything it may come from is visited, the region of a visited result has a range that covers it; the range of the origin region then contains the value whenever the definition goes straight down into it; caches: a trace depends on the origins of visited inputs only (lockstep), and everything it visits lies in observed regions (by induction on the path from the use), so that a change that clears nothing changes no cached answer |
| C104-C105 | CfgOrder | breadth-first: levels of the nodes as an invariant of the queue (sorted, at most one more than the level of the head), every path is at least as long as the level of its end; postorder: the nodes that are visited and not finished reach the current node; each edge from a finished node leads to one finished before or to a node with a path back |
| C106 | ThetaGamma | simulation between the iterations of the two loops: the values of loop variables whose pre value is not dead agree; a divert changes no liveness the rest of the run depends on; the last iteration reads only outputs that are used |
| C107 | CallRedirect | the edge that represents a memory node at the exit of the function is the one that represents it at the entry, by the cases own edge or external edge; the call's merge and split carry this to the caller |
| C108 | IoBarrier | marks are the maximum over the loads that show an address to be dereferenceable; a node that depends on no node that does not return can be executed by itself (merging orders), so the marks hold in every execution; an order of the new region contains one of the old region for every node that depends on no changed load |
| C109 | LoadChain | where tracing finds no modification (and there is no call) memory is unchanged, by induction over the states and the iterations; runs of references keep memory, so all see what the topmost one sees |
| C110 | AllocaSplit | the worklists compute the copies of a pointer (the iteration is at its end after as many steps as pointers); points-to sets of the function before and after are equal by induction over where a pointer points; the elements by induction over the type |

(The table is extended as the model grows.)

## What is modelled, area by area

* **DisjointSet, HashSet, BijectiveMap, Worklist, MathUtil, FilePath, Tarjan** (jlm/util): the whole class or
  function; pointers are natural numbers, container iteration order is arbitrary.
* **Bits** (rvsdg/bitstring/value-representation.hpp): all of the class; characters are a 4/5-valued type.
* **Unroll** (llvm/opt/unroll.cpp): LoopUnrollInfo's computations and the shape of the unrolled loops; the
  execution of the transformed loop for unknown bounds is defined in `Unroll/Spec.v`, the RVSDG rewriting itself is not modelled.
* **CommandGraph** (tooling/CommandGraph.hpp, CommandGraphGenerator.cpp): node creation, edges, the topological sort.
* **Region** (rvsdg/region.cpp, node.cpp, simple-node.cpp, structural-node.cpp): one region with nodes, inputs, outputs,
  arguments, results, all edit operations, exceptions and destructors included. Subregions and the links of
  structural inputs/outputs to arguments/results are not. Counters are unbounded, addresses are chosen by an
  arbitrary allocator, observers are arbitrary functions that do not edit the region.
* **Traverser** (rvsdg/traverser.cpp): both traversers and the tracker, as observers of the region model. `State::pos` is not kept,
  activation counts are unbounded.
* **Andersen** (llvm/opt/alias-analyses/PointerObjectSet.{hpp,cpp}): objects, flags, points-to sets, union-find, the four
  constraints, the naive solver, NormalizeConstraints, HasIdenticalSolAs. The registers of calls and functions are given by a
  record of pointer object indices; indices are unbounded; statistics are left out; loops over hash sets use any order of a snapshot.
  `WModel.v`: RunWorklistSolver with every combination of its template parameters (online, hybrid and lazy cycle detection,
  difference propagation, prefer implicit pointees, topological traversals), for any order of popping. The offline pass that
  fills the table of hybrid cycle detection (PerformOfflineVariableSubstitution) is an arbitrary table here.
* **Rvsdg** (rvsdg/node.hpp, region.cpp, gamma.cpp, theta.cpp, lambda.cpp, Phi.cpp, delta.cpp): the structure of modules, its
  well-formedness, and what a module computes. Functions are values (addresses); calls are operations with an arbitrary meaning.
* **Dne** (llvm/opt/DeadNodeElimination.cpp): the whole pass. The bottom-up traverser is the reverse of the node list (C21 is about the
  traverser itself); statistics are left out; the assertion `numBottomNodes() == 0` is not modelled.
* **Ivr** (llvm/opt/InvariantValueRedirection.cpp) and **Cne** (llvm/opt/CommonNodeElimination.cpp): see the comments at the top of their models.
* **Types** (llvm/ir/types.cpp, rvsdg/FunctionType.cpp, rvsdg/bitstring/type.cpp): all types of LLVM functions; hls and control types are not included.
* **Trace** (rvsdg/Trace.cpp, rvsdg/Trace.hpp, llvm/ir/Trace.cpp:28-65): the whole of both tracers over an unchanged graph; the cache holds origins instead of inputs. Not included: tracing of constants and pointers (llvm/ir/Trace.cpp:67-).
* **Construct**: llvm/ir/aggregation.hpp (node classes), llvm/ir/Annotation.cpp (all), llvm/frontend/InterProceduralGraphConversion.cpp:31-57, 468-857, 911-942 (assignments, selects with a condition of type i1, branch instructions, all other instructions as uninterpreted operations; basic blocks, linear, branch and loop nodes, entry and exit). Not modelled: types and attributes, operations that replace themselves when they are converted (vector select, calls), statistics, the conversion of data nodes and of strongly connected components (phi nodes), and how the tree is made from the CFG.
* **Cfg**: llvm/ir/cfg.hpp, cfg.cpp:35-52, cfg-node.hpp/.cpp (edges, divert, remove), basic-block.hpp (append_first/last), cfg-structure.cpp: is_valid (as the specification `valid`), straighten, purge, prune and its helpers, copy_structural, reduce with T1/T2, is_reducible; ssa.cpp (all). Not modelled: is_structured, is_proper_structured, find_sccs (see Tarjan for the union-find based variant), strongly connected component structure; splicing of a block's instruction list into itself (an unreachable block that is its own only predecessor and successor).
* **Aggregation**: llvm/ir/aggregation.cpp: normalize, AggregationMap::create, is_branch, reduce_branch, reduce_linear, reduceLoop, aggregate_acyclic_sese, aggregate_loops, aggregate (all of the algorithm; a failed assertion, JLM_UNREACHABLE, a lookup of a reduced node and too little fuel are the outcome `None`, so the theorems are about successful runs); cfg-structure.cpp:29-72 StronglyConnectedComponentStructure. find_sccs (78-144) by its specification. Entry and exit nodes are empty blocks. Not modelled: is_aggregated, debug output, ControlFlowRestructuring (which makes the graphs for which aggregation succeeds).
* **Memory**: Load.cpp:43-405, Store.cpp:44-341, MemoryStateOperations.cpp:16-283 and 437-545 (non volatile accesses), their order in NodeReduction.cpp:222-256, NormalizeSequence/ReduceNode, TracePointerOriginPrecise and traceOutput restricted to simple nodes, operator== of merge and join. Regions arguments, structural nodes and all other operations are arbitrary functions of what their operands carry. Only data dependence through states is modelled: that a store must not overtake an earlier load (write after read order) is not. GetTypeStoreSize/GetTypeAllocSize are numbers in the operations. Not modelled: volatile accesses, alignment, call entry/exit and lambda entry operations, memory node identifiers.
* **BinOp** (rvsdg/reduction-helpers.hpp, binary.cpp, bitstring/slice.cpp, bitstring/concat.cpp, llvm/ir/operators/IntegerOperations.cpp
  foldBinaryOperation and flags): an output is the expression it computes; nodes are never changed. Tracing through structural nodes is not modelled here.
* **ScalarEvolution**: ScalarEvolution.cpp: ApplyAddFolding, ApplyMulFolding, ComputeProductOfChrecs, FoldNAryExpression, GetNegativeSCEV, GetOrCreateStepForSCEV, GetOrCreateChainRecurrence, the loop of PerformSCEVAnalysis over a given order, FindDependenciesForSCEV, the self-dependency test of CanCreateChainRecurrence, IsUnknown, StructurallyEqual, GetOrCreateSCEVForOutput for integer operations. Signed 64 bit overflow is modelled as wrap-around. GetPredictedTripCount, ComputeBackedgeTakenCountForChrec, SolveQuadraticEquation and the step sign tests (TripModel.v; double arithmetic modelled on integers; conversion of a negative double to size_t, undefined in C++, wraps - its result is unused). Not modelled: GEP offsets, CombineChrecsAcrossLoops/TryReplaceInitForSCEV, the topological sort.
* **AliasQuery**: LocalAliasAnalysis.cpp (all of Query, except the memo of IsOriginalOriginFullyTraceable), TracePointerOriginPrecise, TraceAllPointerOrigins, tryGetConstantSignedInteger, tryGetAsConstant, getOffsetInBytes, normalizeIdempotent, PointsToGraphAliasAnalysis.cpp, ChainedAliasAnalysis. traceOutput is a parameter with the property proved in Trace (C48-C50). Executions are abstract: histories of evaluations in which each value is justified by earlier ones. Overflow of int64 offset sums is not modelled. The points-to graph is any graph that describes the execution (C27-C33 are about how it is made).
* **LocalRegion**, **Unswitch**: LoopUnswitching.cpp (IsUnswitchable, SinkNodesIntoGamma, UnswitchLoop), pullin_top of pull.cpp, PredicateCorrelation.cpp (all correlations of loops, roles, redirecting; gamma-gamma correlation as a list of users). Names in subregions are local; nodes of a region are listed in the order of the top-down traverser; that GammaNode::copy does not map the content argument is not modelled; types are not, except that C86 assumes the predicate to be a control value.
* **IfConv**: IfConversion.cpp (HandleRegion, HandleGammaNode), the range check and sign extension of BitValueRepresentation. Types are not modelled except the number of alternatives of control types; new nodes are appended to the list of nodes.
* **Sinking**: pull.cpp without sinkDependentNodesIntoGamma: pull(region), pull(gamma), pullin_node, cleanup, is_used_in_nsubregions, isSingleSuccessor. Lambda, phi and delta nodes, types and attributes are not modelled.
* **Hoisting**: push.cpp: getOperandFromTargetRegion, getOperandsFromTargetRegion, copyNodeToTargetRegion, isInvariantMemoryStateLoopVar, with RouteToRegion; the order of the traversal and computeTargetRegion are left open (any sequence of moves). Lambda arguments are those of the outermost region.
* **Destruct**: RvsdgToIpGraphConverter.cpp: CreateControlFlowGraph, ConvertRegion, ConvertSimpleNode, ConvertGammaNode, ConvertThetaNode, RequiresSsaPhiOperation and the Context (blocks, variables), with straighten of the Cfg area at the end. Nodes are converted in the order in which they are listed. Lambda, delta and phi nodes, types and names of variables are not modelled.
* **Inlining**: inlining.cpp: inlineCall and routeContextVariablesToRegion, RouteToRegion of node.cpp, for one call in any nesting. A call is an operation with a number; the choice of the calls (canBeInlined, shouldInline), hoistInlinedAllocas and tracing of context variables past the caller's own arguments are not modelled.
* **Domtree**: domtree.cpp: domtree, intersect, build_domtree; cfg.cpp: postorder, reverse_postorder; cfg-structure.cpp: is_closed. The tree is a map from nodes to parents and depths; the order of the children is left out.
* **PredTrace**: RegionPredicateTrace.cpp and .hpp: all queries, the caches and the observer of changed inputs (not that of destroyed nodes). The graph is what the trace looks at: origins, owners and control types.
* **IoBarrier**: IOBarrierElimination.cpp on the region of a lambda node: the context, mark and sweep; executions are orders of nodes that end at a node that does not return.
* **LoadChain**: LoadChainSeparation.cpp: traceModRefChains, the types of theta outputs, extractReferenceSubchains and separateReferenceChains on one chain of a region.
* **AllocaSplit**: AggregateAllocaSplitting.cpp: isSplitableType, isSplitable, checkGetElementPtrUsers, createElementAllocaNodes and splitAllocaNode on the pointers of a function (counts other than 1, memory states and routing are left out).
* **CallRedirect**: InvariantValueRedirection.cpp: redirectCallOutputs of a call that ClassifyCall finds to be a non-recursive direct one; edges carry the contents of the memory nodes they represent.
* **ThetaGamma**: InvariantValueRedirection.cpp: redirectThetaGammaOutputs with divertLoopVar; the correlation and roles are those of ThetaPred (C87).
* **CfgOrder**: cfg.cpp: breadth_first; postorder and reverse_postorder are those of Domtree.

## Findings (behaviour of the code that contradicts its documentation; all proved as `_refuted`)

* `HashSet::IsSubsetOf` and `UnionWithAndClear`'s result flag; `RoundUpToMultipleOf` on signed values; `truncate` with 0 bits; `FilePath::Dirname` with
  repeated slashes; suffix functions.
* `BitValueRepresentation`: range check of the constructors; division and modulo with unknown bits are unsound.
* Unrolling: `niterations` (wrap-around, strides, signedness).
* Command graph: the topological sort is a breadth first search and can visit a command before its inputs; mixed `.c`/`.o` inputs.
* `Node::RemoveInputs` on a node without inputs corrupts the list of top nodes.
* Traversers: top down misses a node that loses two inputs in one `RemoveInputs`, and treats a new structural node as visited
  before its inputs exist; bottom up visits new nodes (against the documentation), visits their predecessors too early, and can miss nodes.
* `FunctionCallConstraint::ApplyDirectly` (naive solver) inserts into the points-to set it iterates over when a function calls its own
  parameter and may be passed itself.
* Common node elimination miscompiles: marking a loop body again makes a node a follower of a later node (`cne_sound_refuted`, against the
  invariant documented in CommonNodeElimination.cpp:96-99).
* Flattened binary nodes: `NormalizeFlattenedBinaryOperation` fails an assertion when more than two operands remain; `reduce_parallel` rotates the
  operands, which is wrong for operations that are only associative (bit concatenation is one).
* Bit concatenation with three or more operands: `NormalizeBinaryOperation` throws when it merges two of them; `FlattenBitConcatOperation` fails an
  assertion when there is nothing to flatten. Folding a shift by a constant of 2^64 or more throws.
* `VectorType::operator==` does not distinguish fixed from scalable vectors, which hash differently.
* Tracing a match content argument (`GammaNode::mapBranchArgumentToInput` on the argument of the predicate) fails a type assertion.
* Branch annotation (Annotation.cpp:422-445): what all alternatives of a branch write stays in the working set, so an earlier branch that writes the same variable in some of its alternatives demands it as an input; the enclosing linear node removes it again, so that nothing provides it, and the conversion fails the lookup (`convert_total_refuted`). Whether the frontend's restructuring makes such trees was not examined.
* `is_reducible` merges a node's predecessor into the node but drops the predecessor's other successors (reduce_T2, cfg-structure.cpp:395-407): an if-then-else is answered no, a loop with two entries can be answered yes (`is_reducible_refuted`, `is_reducible_unsound_refuted`). Nothing in jlm calls it.
* `purge` on a graph with phis can leave a phi operand from a removed block, so that its final assertion fails (`purge_phi_refuted`). The frontend calls it after SSA destruction.
* `destruct_ssa` on a graph whose first block starts with a phi (valid by is_valid, impossible in LLVM) drops the wrong instruction and then uses a phi whose result has been moved away (`destruct_ssa_first_phi_refuted`).
* `aggregate` on a block with the successors [exit, header of the enclosing loop, itself] makes it the body of an inner loop and loses the decision about the outer one (`aggregate_wide_refuted`). Restructuring does not produce such blocks.
* (Not proved) two nested loops with the same header, or a repetition edge with index 0, make `aggregate` fail an assertion or reach JLM_UNREACHABLE; restructuring does not produce them.
* `NormalizeLoadAlloca` (Load.cpp:165-170) returns the states of the load first and the removed states last, whatever their positions: the users of the states get each other's states (`load_alloca_states_refuted`).
* `NormalizeLoadStoreState` drops the state of a store to another alloca even if that store's own input states carry an earlier store to the loaded alloca: the load reads an old value (`load_store_state_refuted`).
* `normalizeIOBarrierAddress` (Load.cpp and Store.cpp) converts the signed offset to size_t: offset -4 and an access of 4 bytes sum to 0, so that an access before the object passes the check (`barrier_negative_offset_refuted`).
* `NormalizeStoreMux` asserts that a store has states, although NodeReduction runs it first on every store and normalizeStoreStore handles stores without states; with several states of one merge it returns one result for several outputs, which fails the assertion of divert_users (`store_mux_crash`).
* `NormalizeStoreAlloca` returns its results in the iteration order of an unordered_set, and fewer results than outputs if states are duplicated (`store_alloca_order_refuted`, `store_alloca_duplicates_refuted`).
* `normalizeStoreStore` ignores states of the first store that do not go to the second: the order of the two writes is lost for their users (`store_store_refuted`).
* `NormalizeSplitMerge` replaces each output of a split of a merge by the merge's operand at that position, which does not know what the other operands know (`split_merge_refuted`); this is intended when position i is only used for the memory of operand i (`split_merge_sound_partial`).
* `MemoryStateJoinOperation::operator==` casts to MemoryStateMergeOperation: a join is not equal to itself, and equal to a merge that is not equal to it (`join_not_equal_itself_refuted`).
* ScalarEvolution: ComputeProductOfChrecs takes a last increment that is a recurrence of another loop as if it belonged to the same loop (`mul_folding_nested_refuted`).
* ScalarEvolution: a loop variable that is overwritten by a constant or by another variable, or by 2*(x+1), gets the recurrence of an increment (`recurrence_of_reset_refuted`, `recurrence_of_copy_refuted`, `recurrence_of_scaled_refuted`).
* ScalarEvolution: extensions are ignored, so a narrow counter that wraps is described wrongly (`tree_of_extension_refuted`); IsUnknown tests the left operand twice (`unknown_tree_refuted`); StructurallyEqual has no case for placeholders (`structural_equality`).
* ScalarEvolution trip counts: constant on the left not swapped, match alternatives ignored, unsigned comparisons treated as signed, rounding beyond 2^53, overflow ignored (`constant_on_left_refuted`, `inverted_match_refuted`, `unsigned_comparison_refuted`, `rounded_count_refuted`, `overflow_refuted`).
* ScalarEvolution trip counts: quadratic recurrence with second increment 0 divides by zero; with second > 2*first the low root is taken although it is not positive; == with first increment 0 (`quadratic_division_by_zero_crash`, `quadratic_wrong_root_refuted`, `quadratic_equality_refuted`).
* LocalAliasAnalysis: tracing over the back edge of a loop identifies the pointer of the last iteration with that of this iteration: wrong MustAlias and wrong NoAlias (`local_must_alias_refuted`, `local_no_alias_refuted`).
* tryGetConstantSignedInteger: extension of a value of more than 64 bits fails an assertion (`constant_wide_refuted`); getOffsetInBytes throws for indices into vectors although it is noexcept (`gep_offset_vector_refuted`); getIndexedType compares with > instead of >= (seen, not modelled).
* ChainedAliasAnalysis: for p = undef/null and q = p + 0 the local analysis answers MustAlias and the points-to graph NoAlias, so that the assertion on compatible answers fails (`chained_dead_refuted`).
* LoopUnswitching: IsUnswitchable accepts a match that is only an entry variable of the gamma node; the loop is miscompiled (`unswitch_entry_variable_refuted`); a heuristic other than the default one can let roles of another gamma node through (`unswitch_other_heuristic_refuted`); dead nodes that use outputs of the gamma node, and uses of the match content argument, make a lookup throw (`unswitch_throws_refuted`).
* PredicateCorrelation: determineGammaSubregionRoles is wrong for alternatives that are both 0 or both 1 (`roles_refuted`); the gamma-gamma correlation dereferences a null pointer for users that are no gamma nodes (`gamma_gamma_null_refuted`).
* IfConversion: a match of more than 64 bits with a case of 2^63 or more is miscompiled, as the constant is sign-extended (`if_conversion_wide_refuted`); an assertion fails if the only case has the default alternative, and a null pointer is dereferenced if the match content argument is passed on (`if_conversion_crash_refuted`); gamma nodes in gamma nodes are not visited (`if_conversion_nested_refuted`).
* NodeHoisting moves operations that can be undefined (division) out of gamma nodes, where they are executed unconditionally (`hoist_preserves_refuted`).
* NodeHoisting::isInvariantMemoryStateLoopVar compares the results of two TryGetOwnerNode<SimpleNode>; both are null if structural nodes (or region arguments and results) are involved, and a loop variable that is written in every iteration counts as invariant: a load is moved out of the loop (`hoist_memory_refuted`).
* RvsdgToIpGraphConverter gives match content arguments of gamma nodes no variable: the conversion fails for a gamma node whose subregion uses its match content argument, though such regions are valid (`convertible_refuted`).
* domtree (domtree.cpp:88): the assertion is_closed does not ensure that all nodes are reachable (it only demands a predecessor of every basic block); with an unreachable cycle the assertion `index == 0` fails (`domtree_closed_refuted`).
* CheckPredicatesSatisfiable: a definition that leaves a gamma through an entry variable and goes down into another one gives a wrong no: the first gamma's branch was entered, but the value was taken from elsewhere (`check_reachable_refuted`; StoreValueForwarding skips regions on a no); parallel branches get a yes (`check_unreachable_refuted`).
* RegionPredicateTrace does not observe the region of a theta whose loop variable it passes as invariant, nor the region of a use given to GetRegionPredicateAssignConstraints: after a change of the loop variable's post origin the check says no for a region that is reachable (`check_stale_refuted`, `assign_stale_refuted`).
* redirectCallOutputs guards against calls whose type is not the function's by comparing the numbers of arguments only: with equal numbers and other types divert_to throws a TypeError, and with another number of results the outputs are compared with the wrong results or read behind their end (call_redirect_type_refuted, call_redirect_results_refuted). A memory node that is represented at the callee's exit and not at its entry is taken to be invariant (call_redirect_routed_refuted).
* IOBarrierElimination takes a load without a barrier as a proof that its address can be accessed everywhere in the function, although the load may be ordered after a call by its memory states: `g0(p); x = *p (barrier); g(p); y = *p` with a g0 that exits for a null p can execute x = *p before g0 (barrier_elimination_states_refuted). A load of the pointer that a load behind a barrier returns is ordered by that barrier only, and loses the order with it (barrier_elimination_dependent_refuted).
* LoadChainSeparation::traceModRefChains returns false for the memory state of a call (LoadChainSeparation.cpp:438-444 drops the result of the trace and sets nothing), so a theta node with a call in it is a Reference link: `while (..) g(); x = *p` becomes a load from the state before the loop, joined with the state after it (load_chain_call_refuted).
* AggregateAllocaSplitting follows an address out of a gamma or theta node without looking at what else comes out there: with `struct s * p = c ? &a : &b; p->y = 1` it splits a and b and the store always goes to a (alloca_split_merge_refuted). isSplitableType returns at the first element of aggregate type, so that of `struct { struct { int; }; int[4]; }` is split and that of `struct { int[4]; struct { int; }; }` is not (splitable_type_refuted); an index into the array is then not in the map of the elements and unordered_map::at throws.
