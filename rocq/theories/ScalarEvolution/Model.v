(** Model of the SCEV algebra of jlm/llvm/opt/ScalarEvolution.{hpp,cpp}:
    SCEV terms, the folding rules of the chain-of-recurrence algebra, and the
    construction of a chain recurrence for an output of a theta node. *)
From Coq Require Import ZArith List Bool Lia.
From stdpp Require Import tactics base list gmap.
Local Open Scope Z_scope.

(** ScalarEvolution.hpp:30-560: the SCEV class hierarchy.  Outputs and theta
    nodes are identified by numbers (pointer identity).  Constants are int64_t
    values, represented by the integer itself. *)
Inductive scev :=
| Unknown                                     (* SCEVUnknown *)
| Init (o : nat)                              (* SCEVInit *)
| Placeholder (o : nat)                       (* SCEVPlaceholder *)
| Const (c : Z)                               (* SCEVConstant *)
| AddE (l r : scev)                           (* SCEVAddExpr *)
| MulE (l r : scev)                           (* SCEVMulExpr *)
| Chrec (loop out : nat) (ops : list scev)    (* SCEVChainRecurrence *)
| NAdd (ops : list scev)                      (* SCEVNAryAddExpr *)
| NMul (ops : list scev).                     (* SCEVNAryMulExpr *)

(** int64_t arithmetic.  Signed overflow is undefined in C++; the model wraps,
    which is what the supported targets do. *)
Definition wrap64 (z : Z) : Z := (z + 2 ^ 63) mod 2 ^ 64 - 2 ^ 63.

Fixpoint size (s : scev) : nat :=
  match s with
  | AddE l r | MulE l r => S (size l + size r)
  | Chrec _ _ ops | NAdd ops | NMul ops => S (sum_list (map size ops))
  | _ => 1
  end.
Definition osize (s : option scev) : nat := match s with Some s => size s | None => 0 end.

Definition is_unknown (s : option scev) : bool :=
  match s with Some Unknown => true | _ => false end.

(** ScalarEvolution.cpp:1535-1556, 1834-1856: fold a constant with the first
    constant operand of an n-ary expression, or append it. *)
Fixpoint fold_const (f : scev -> scev) (c : scev) (ops : list scev) : list scev :=
  match ops with
  | [] => [c]
  | Const k :: ops => f (Const k) :: ops
  | o :: ops => o :: fold_const f c ops
  end.

(** ScalarEvolution.cpp:1341-1581 ApplyAddFolding.  [None] is a null operand.
    The recursion decreases the sum of the sizes of the operands ([n]). *)
Fixpoint add_fold (n : nat) (l r : option scev) (out : nat) {struct n} : scev :=
  match n with
  | O => Unknown
  | S n =>
    if is_unknown l || is_unknown r then Unknown else
    match l, r with
    | Some (Chrec ll lo lops), Some (Chrec rl ro rops) =>
        if decide (ll = rl)
        then Chrec ll out
               (map (fun i => add_fold n (lops !! i) (rops !! i) out)
                    (seq 0 (Nat.max (length lops) (length rops))))
        else Chrec ll out [NAdd [Chrec ll lo lops; Chrec rl ro rops]]
    | Some (Chrec cl co ops), other | other, Some (Chrec cl co ops) =>
        match other with
        | Some (Const 0) => Chrec cl co ops
        | _ => Chrec cl out
                 (match ops with
                  | [] => []
                  | o :: ops => add_fold n (Some o) other out :: ops
                  end)
        end
    | Some (NMul a), Some (NMul b) => NAdd [NMul a; NMul b]
    | Some (NMul a), Some (NAdd b) | Some (NAdd b), Some (NMul a) => NAdd (b ++ [NMul a])
    | Some (NMul a), Some (Init o) | Some (Init o), Some (NMul a) => NAdd [NMul a; Init o]
    | Some (NMul a), Some (Const c) | Some (Const c), Some (NMul a) =>
        if c =? 0 then NMul a else NAdd [NMul a; Const c]
    | Some (NMul a), _ | _, Some (NMul a) => NMul a
    | Some (Init a), Some (Init b) => NAdd [Init a; Init b]
    | Some (Init a), Some (NAdd b) | Some (NAdd b), Some (Init a) => NAdd (b ++ [Init a])
    | Some (Init a), Some (Const c) | Some (Const c), Some (Init a) =>
        if c =? 0 then Init a else NAdd [Init a; Const c]
    | Some (Init a), _ | _, Some (Init a) => Init a
    | Some (NAdd a), Some (NAdd b) => NAdd (a ++ b)
    | Some (NAdd a), Some (Const c) | Some (Const c), Some (NAdd a) =>
        if c =? 0 then NAdd a
        else NAdd (fold_const (fun k => add_fold n (Some k) (Some (Const c)) out) (Const c) a)
    | Some (NAdd a), _ | _, Some (NAdd a) => NAdd a
    | Some (Const a), Some (Const b) => Const (wrap64 (a + b))
    | Some (Const a), _ | _, Some (Const a) => Const a
    | _, _ => Unknown
    end
  end.
Definition ApplyAddFolding (l r : option scev) (out : nat) : scev :=
  add_fold (S (osize l + osize r)) l r out.

(** Collects the results of a loop that calls a partial function. *)
Fixpoint collect (l : list (option scev)) : option (list scev) :=
  match l with
  | [] => Some []
  | Some x :: l => match collect l with Some r => Some (x :: r) | None => None end
  | None :: _ => None
  end.

(** A chain recurrence: loop, output and operands. *)
Definition chrec := (nat * nat * list scev)%type.
Definition as_scev (c : chrec) : scev := let '(l, o, ops) := c in Chrec l o ops.
(** SCEV.hpp CloneAs<SCEVChainRecurrence>: asserted cast. *)
Definition as_chrec (s : scev) : option chrec :=
  match s with Chrec l o ops => Some (l, o, ops) | _ => None end.

(** ScalarEvolution.hpp:410-427 GetStep of a recurrence with at least two
    operands, made a recurrence (again) at ScalarEvolution.cpp:1658-1681: a step
    that is the last operand and itself a recurrence, of whatever loop, is taken
    as it is. *)
Definition step_recurrence (l o : nat) (ops : list scev) (out : nat) : chrec :=
  match ops with
  | [_; Chrec l' o' ops'] => (l', o', ops')
  | [_; x] => (l, out, [x])
  | _ => (l, o, tail ops)
  end.

(** ScalarEvolution.cpp:1698-1880 ApplyMulFolding and 1583-1696
    ComputeProductOfChrecs.  [None]: out of fuel, or the exception of a failed
    cast. *)
Fixpoint mul_fold (n : nat) (l r : scev) (out : nat) {struct n} : option scev :=
  match n with
  | O => None
  | S n =>
    if is_unknown (Some l) || is_unknown (Some r) then Some Unknown else
    match l, r with
    | Chrec ll lo lops, Chrec rl ro rops =>
        if decide (ll = rl)
        then match product n (ll, lo, lops) (rl, ro, rops) out with
             | Some c => Some (as_scev c) | None => None end
        else Some (Chrec ll out [NMul [Chrec ll lo lops; Chrec rl ro rops]])
    | Chrec cl co ops, other | other, Chrec cl co ops =>
        match other with
        | Const 1 => Some (Chrec cl co ops)
        | Const 0 => Some (Const 0)
        | _ => match collect (map (fun o => mul_fold n o other out) ops) with
               | Some ops' => Some (Chrec cl out ops') | None => None end
        end
    | NAdd ops, other | other, NAdd ops =>
        match collect (map (fun o => mul_fold n o other out) ops) with
        | Some ops' => Some (NAdd ops') | None => None end
    | Init a, Init b => Some (NMul [Init a; Init b])
    | Init a, NMul b | NMul b, Init a => Some (NMul (b ++ [Init a]))
    | Init a, Const c | Const c, Init a =>
        Some (if c =? 1 then Init a else NMul [Init a; Const c])
    | Init a, _ | _, Init a => Some (Init a)
    | NMul a, NMul b => Some (NMul (a ++ b))
    | NMul a, Const c | Const c, NMul a =>
        Some (if c =? 1 then NMul a
              else NMul (fold_const (fun k => match k with
                                              | Const k => Const (wrap64 (k * c))
                                              | _ => Unknown end) (Const c) a))
    | NMul a, _ | _, NMul a => Some (NMul a)
    | Const a, Const b => Some (Const (wrap64 (a * b)))
    | Const a, _ | _, Const a => Some (Const a)
    | _, _ => Some Unknown
    end
  end
with product (n : nat) (l r : chrec) (out : nat) {struct n} : option chrec :=
  match n with
  | O => None
  | S n =>
    let '(ll, lo, lops) := l in
    let '(rl, ro, rops) := r in
    match lops, rops with
    | _, [] => Some (ll, lo, lops)
    | [], _ => Some (rl, ro, rops)
    | [g], _ =>
        match collect (map (fun x => mul_fold n g x out) rops) with
        | Some ops => Some (ll, out, ops) | None => None end
    | _, [g] =>
        match collect (map (fun x => mul_fold n x g out) lops) with
        | Some ops => Some (ll, out, ops) | None => None end
    | _ :: _ :: _, _ :: _ :: _ =>
        let '(ll, lo, lops, (rl, ro, rops)) :=
          if decide (length lops < length rops)%nat
          then (rl, ro, rops, (ll, lo, lops)) else (ll, lo, lops, (rl, ro, rops)) in
        let lstep := step_recurrence ll lo lops out in
        let rstep := step_recurrence rl ro rops out in
        match as_chrec (ApplyAddFolding (Some (Chrec rl ro rops)) (Some (as_scev rstep)) out) with
        | None => None
        | Some rmarked =>
          match product n (ll, lo, lops) rstep out, product n rmarked lstep out with
          | Some res1, Some res2 =>
            match as_chrec (ApplyAddFolding (Some (as_scev res1)) (Some (as_scev res2)) out) with
            | None => None
            | Some (fl, fo, fops) =>
              match head lops, head rops with
              | Some a, Some b =>
                match mul_fold n a b out with
                | Some first => Some (fl, fo, first :: fops)
                | None => None
                end
              | _, _ => None
              end
            end
          | _, _ => None
          end
        end
    end
  end.

(** ScalarEvolution.cpp:1289-1338 FoldNAryExpression: the first two operands
    that are not Init are folded, the second is removed and the first replaced,
    until at most one such operand remains. *)
Definition is_init (s : scev) : bool := match s with Init _ => true | _ => false end.
Fixpoint split_non_init (ops : list scev) : option (list scev * scev * list scev) :=
  match ops with
  | [] => None
  | o :: ops =>
      if is_init o
      then match split_non_init ops with
           | Some (pre, x, post) => Some (o :: pre, x, post) | None => None end
      else Some ([], o, ops)
  end.
Fixpoint fold_nary_loop (f : scev -> scev -> option scev) (n : nat) (ops : list scev)
  : option (list scev) :=
  match split_non_init ops with
  | None => Some ops
  | Some (pre, x, post) =>
      match split_non_init post with
      | None => Some ops
      | Some (pre', y, post') =>
          match n with
          | O => None
          | S n => match f x y with
                   | Some z => fold_nary_loop f n (pre ++ z :: pre' ++ post')
                   | None => None end
          end
      end
  end.
Definition unwrap_single (mk : list scev -> scev) (ops : list scev) : scev :=
  match ops with [o] => o | _ => mk ops end.
Definition FoldNAryExpression (fuel : nat) (s : scev) (out : nat) : option scev :=
  match s with
  | NAdd ops =>
      option_map (unwrap_single NAdd)
        (fold_nary_loop (fun x y => Some (ApplyAddFolding (Some x) (Some y) out)) (length ops) ops)
  | NMul ops =>
      option_map (unwrap_single NMul)
        (fold_nary_loop (fun x y => mul_fold fuel x y out) (length ops) ops)
  | _ => None
  end.

(** ScalarEvolution.cpp:1883-1914 GetNegativeSCEV *)
Fixpoint GetNegativeSCEV (s : scev) : scev :=
  match s with
  | Const c => Const (wrap64 (- c))
  | MulE (Const c) r =>
      if c =? -1 then r
      else match r with
           | Const d => if d =? -1 then Const c else MulE (Const (-1)) s
           | _ => MulE (Const (-1)) s end
  | MulE l (Const d) => if d =? -1 then l else MulE (Const (-1)) s
  | AddE l r => AddE (GetNegativeSCEV l) (GetNegativeSCEV r)
  | _ => MulE (Const (-1)) s
  end.

(** ScalarEvolution.cpp:1242-1287 GetOrCreateStepForSCEV, for [output] of the
    theta [loop].  [known] is Context_->TryGetChrecForOutput. *)
Fixpoint step_for (fuel : nat) (known : gmap nat chrec) (loop output : nat) (t : scev)
  : option chrec :=
  match t with
  | Const c => Some (loop, output, [Const c])
  | Placeholder p =>
      if decide (p = output) then Some (loop, output, [])
      else match known !! p with
           | Some c => Some c
           | None => Some (loop, output, [Unknown]) end
  | AddE l r =>
      match step_for fuel known loop output l, step_for fuel known loop output r with
      | Some a, Some b =>
          as_chrec (ApplyAddFolding (Some (as_scev a)) (Some (as_scev b)) output)
      | _, _ => None end
  | MulE l r =>
      match step_for fuel known loop output l, step_for fuel known loop output r with
      | Some a, Some b =>
          match mul_fold fuel (as_scev a) (as_scev b) output with
          | Some s => as_chrec s | None => None end
      | _, _ => None end
  | _ => Some (loop, output, [Unknown])
  end.

(** ScalarEvolution.cpp:1209-1239 GetOrCreateChainRecurrence.  [start] is what
    the analysis knows of the value that enters the loop: [None] if [output] is
    not the pre value of a loop variable of [loop]; [Some None] if it is, but
    enters with a value that is not a constant. *)
Definition chain_recurrence (fuel : nat) (known : gmap nat chrec) (loop output : nat)
    (start : option (option Z)) (t : scev) : option chrec :=
  match known !! output with
  | Some c => Some c
  | None =>
    match step_for fuel known loop output t with
    | None => None
    | Some (l, o, ops) =>
        match start with
        | None => Some (l, o, ops)
        | Some (Some c) => Some (l, o, Const c :: ops)
        | Some None => Some (l, o, Init output :: ops)
        end
    end
  end.

(** ScalarEvolution.cpp:1099-1126 FindDependenciesForSCEV: the dependencies of a
    tree on loop variables, with their number of occurrences and the operation
    that directly uses the last occurrence. *)
Inductive depop := DAdd | DMul | DNone.
Definition deps := gmap nat (nat * depop).
Fixpoint find_deps (t : scev) (op : depop) (d : deps) : deps :=
  match t with
  | Placeholder p =>
      <[ p := (S (match d !! p with Some (c, _) => c | None => O end), op) ]> d
  | AddE l r => find_deps r DAdd (find_deps l DAdd d)
  | MulE l r => find_deps r DMul (find_deps l DMul d)
  | _ => d
  end.
(** ScalarEvolution.cpp:1916-1934: the requirements CanCreateChainRecurrence
    puts on the dependency of [output] on itself. *)
Definition self_dep_ok (output : nat) (t : scev) : bool :=
  match find_deps t DNone ∅ !! output with
  | Some (c, op) => (c =? 1)%nat && match op with DMul => false | _ => true end
  | None => true
  end.

(** ScalarEvolution.cpp:1976-2004 IsUnknown.  (As in the code, the left operand
    of a binary expression is tested twice and the right one never.) *)
Fixpoint IsUnknown (s : scev) : bool :=
  match s with
  | Unknown => true
  | Init _ | Const _ | Placeholder _ => false
  | AddE l r | MulE l r => IsUnknown l || IsUnknown l
  | Chrec _ _ ops | NAdd ops | NMul ops => existsb IsUnknown ops
  end.

(** ScalarEvolution.cpp:2006-2068 StructurallyEqual.  (As in the code, there is
    no case for placeholders, which fall through to [false].) *)
Fixpoint StructurallyEqual (a b : scev) : bool :=
  let fix all (l r : list scev) : bool :=
    match l, r with
    | [], [] => true
    | x :: l, y :: r => StructurallyEqual x y && all l r
    | _, _ => false
    end in
  match a, b with
  | Unknown, Unknown => true
  | Const x, Const y => x =? y
  | Init x, Init y => (x =? y)%nat
  | AddE l r, AddE l' r' | MulE l r, MulE l' r' =>
      StructurallyEqual l l' && StructurallyEqual r r'
  | Chrec l o ops, Chrec l' o' ops' => (l =? l')%nat && (o =? o')%nat && all ops ops'
  | NAdd ops, NAdd ops' | NMul ops, NMul ops' => all ops ops'
  | _, _ => false
  end.

(** The integer expressions GetOrCreateSCEVForOutput understands
    (ScalarEvolution.cpp:943-1048); pointer arithmetic is not modelled. *)
Inductive expr :=
| EVar (p : nat)            (* argument of the theta region: a loop variable *)
| EConst (c : Z)            (* IntegerConstantOperation *)
| EAdd (l r : expr) | ESub (l r : expr) | EMul (l r : expr) | EShl (l r : expr)
| EExt (signed : bool) (w : nat) (e : expr)   (* sext, zext from w bits *)
| EBarrier (e : expr)       (* IOBarrierOperation *)
| EOther.                   (* anything else *)

(** ScalarEvolution.cpp:943-1048 GetOrCreateSCEVForOutput (without the cache).
    [1ULL << amount] at line 1025 is undefined outside 0..63; the model takes the
    amount modulo 64 as the hardware does. *)
Fixpoint scev_of (e : expr) : scev :=
  match e with
  | EVar p => Placeholder p
  | EConst c => Const c
  | EAdd l r => AddE (scev_of l) (scev_of r)
  | ESub l r => AddE (scev_of l) (GetNegativeSCEV (scev_of r))
  | EMul l r => MulE (scev_of l) (scev_of r)
  | EShl l r =>
      match scev_of r with
      | Const c => MulE (scev_of l) (Const (wrap64 (2 ^ (c mod 64))))
      | _ => Unknown end
  | EExt _ _ e | EBarrier e => scev_of e
  | EOther => Unknown
  end.

(** ScalarEvolution.cpp:866-941 PerformSCEVAnalysis, lines 906-927: the chain
    recurrences of the outputs of the theta [loop], computed in the given order.
    An output is given with its tree - for a loop variable the tree of the value
    it has in the next iteration (lines 911-917) - and with what is known about
    its start value, as for [chain_recurrence].  The outputs without recurrence
    (lines 929-937) are not modelled: they get an unknown one. *)
Record evolution := Evolution { ev_output : nat; ev_start : option (option Z); ev_tree : scev }.
Fixpoint analyse (fuel : nat) (loop : nat) (order : list evolution) (known : gmap nat chrec)
  : option (gmap nat chrec) :=
  match order with
  | [] => Some known
  | e :: order =>
      match chain_recurrence fuel known loop (ev_output e) (ev_start e) (ev_tree e) with
      | Some c => analyse fuel loop order (<[ ev_output e := c ]> known)
      | None => None
      end
  end.
