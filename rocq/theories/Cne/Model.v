(** Model of jlm/llvm/opt/CommonNodeElimination.cpp.
    Simplifications: types of outputs are not modelled (areOutputsCongruent 273-274: the operations compared before determine them). The nodes of
    a region are visited in the order in which it lists them, a topological order; every traversal uses the same one. Exceptions
    (std::logic_error), failed assertions and null dereferences are [None]. *)
From stdpp Require Import base list list_numbers fin_sets gmap.
From Verif.Rvsdg Require Import Model Spec Divert.
From Verif.Dne Require Import Model.
From Verif.Ivr Require Import Model.

(** 80-257 Context: sets_ (its leaders, by index) and congruenceSetMapping_. The followers of set i are the outputs mapped to i other than its leader. *)
Record cstate := CState { leads : list oid; cmap : gmap nat nat }.
Definition cstate0 : cstate := CState [] ∅.
(** 171-195 getOrCreateSetForLeader *)
Definition get_or_create (σ : cstate) (o : oid) : nat * cstate :=
  let new := (length (leads σ), CState (leads σ ++ [o]) (<[o := length (leads σ)]> (cmap σ))) in
  match cmap σ !! o with
  | Some i => if decide (leads σ !! i = Some o) then (i, σ) else new
  | None => new
  end.
(** 217-241 addFollower *)
Definition add_follower (i : nat) (o : oid) (σ : cstate) : option cstate :=
  let σ' := CState (leads σ) (<[o := i]> (cmap σ)) in
  match cmap σ !! o with
  | Some j => if decide (leads σ !! j = Some o) then None else Some σ'
  | None => Some σ'
  end.
(** 202-207 getLeader, for the set of an output *)
Definition lead (σ : cstate) (o : oid) : oid := default o (i ← cmap σ !! o; leads σ !! i).
(** 267-281 areOutputsCongruent. An output without set, for which getSetFor throws, counts as not congruent; see [marked]. *)
Definition same_set (σ : cstate) (x y : oid) : bool :=
  match cmap σ !! x, cmap σ !! y with Some i, Some j => bool_decide (i = j) | _, _ => false end.
Definition is_simple (n : node) : bool := match nkind n with Simple _ | Load _ => true | _ => false end.
Definition same_op (k k' : kind) : bool :=
  match k, k' with Simple a, Simple b => bool_decide (a = b) | Load a, Load b => bool_decide (a = b) | _, _ => false end.
Fixpoint all_same_set (σ : cstate) (l l' : list oid) : bool :=
  match l, l' with [], [] => true | x :: l, y :: l' => same_set σ x y && all_same_set σ l l' | _, _ => false end.
(** 296-332 checkNodesCongruent *)
Definition congruent (σ : cstate) (n m : node) : bool := same_op (nkind n) (nkind m) && all_same_set σ (nins n) (nins m).
(** 339-346 markNodeAsLeader *)
Definition make_leaders (l : list oid) (σ : cstate) : cstate := foldl (fun σ o => (get_or_create σ o).2) σ l.
(** 358-375 markNodesAsCongruent *)
Definition follow_node (m n : node) (σ : cstate) : option cstate :=
  if decide (length (nouts m) = length (nouts n)) then
    foldl (fun σ '(l, o) => σ ← σ; i ← cmap σ !! l; add_follower i o σ) (Some σ) (zip (nouts m) (nouts n))
  else None.
(** 385-402 tryGetLeaderNode: [None] if the leader is not the output of a simple node of the region, [Some None] for a node that was not marked yet *)
Definition leader_node (σ : cstate) (ns : list node) (n : node) : option (option node) :=
  match nouts n with
  | [] => Some (Some n)
  | o :: _ => match cmap σ !! o with
      | None => Some None
      | Some i => l ← leads σ !! i; '(_, m) ← list_find (fun m => is_simple m = true /\ l ∈ nouts m) ns; Some (Some m)
      end
  end.
Definition stays (σ : cstate) (n : node) (m : option node) : bool :=
  match m with Some m => bool_decide (nid m = nid n) || congruent σ n m | None => false end.

Section Cne.
  (** the order in which the users of an output, the followers of a set (both unordered) and the entries of the hash table of exit variables are
      tried: [choose] picks one of the given indices of candidates *)
  Context (choose : cstate -> list nat -> option nat).

  (** 415-456 markSimpleTopNode *)
  Definition mark_top (ns : list node) (n : node) (tops : list node) (σ : cstate) : option (list node * cstate) :=
    m ← leader_node σ ns n;
    if stays σ n m then Some (match m with Some m => if decide (nid m = nid n) then tops ++ [n] else tops | None => tops end, σ)
    else match list_find (fun m => congruent σ n m = true) tops with
         | Some (_, m) => σ' ← follow_node m n σ; Some (tops, σ')
         | None => Some (tops ++ [n], make_leaders (nouts n) σ)
         end.
  (** 466-538 markSimpleNode; the candidates 488-521 are the nodes that use a member of the set of the origin of input 0 as origin of their input 0 *)
  Definition candidate (σ : cstate) (ns : list node) (n m : node) : bool :=
    is_simple m && negb (bool_decide (nid m = nid n)) && congruent σ n m &&
    match leader_node σ ns m with Some (Some m') => bool_decide (nid m' = nid m) | _ => false end.
  Definition mark_simple (ns : list node) (n : node) (σ : cstate) : option cstate :=
    m ← leader_node σ ns n;
    if stays σ n m then Some σ
    else match choose σ (filter (fun i => match ns !! i with Some m => candidate σ ns n m | None => false end = true) (seq 0 (length ns))) with
         | Some i => m ← ns !! i; follow_node m n σ
         | None => Some (make_leaders (nouts n) σ)
         end.
  (** 1105-1137 markRegion; each node comes with what marks it if it is structural *)
  Fixpoint visit_nodes (ns : list node) (l : list (node * (cstate -> option cstate))) (tops : list node) (σ : cstate) : option cstate :=
    match l with
    | [] => Some σ
    | (n, f) :: l =>
        if is_simple n then
          match nins n with
          | [] => '(tops', σ') ← mark_top ns n tops σ; visit_nodes ns l tops' σ'
          | _ => σ' ← mark_simple ns n σ; visit_nodes ns l tops σ'
          end
        else σ' ← f σ; visit_nodes ns l tops σ'
    end.

  (** 572-618 partitionArguments: the argument, its key; newSets *)
  Definition lookup_key {K} `{EqDecision K} (k : K) (l : list (K * nat)) : option nat := snd <$> (snd <$> list_find (fun d => d.1 = k) l).
  Definition partition_step (st : option (list ((option nat * nat) * nat) * cstate)) (d : oid * nat) : option (list ((option nat * nat) * nat) * cstate) :=
    '(new, σ) ← st;
    let cur := cmap σ !! d.1 in
    match lookup_key (cur, d.2) new with
    | Some i => if decide (cur = Some i) then Some (new, σ) else σ' ← add_follower i d.1 σ; Some (new, σ')
    | None => let '(i, σ') := get_or_create σ d.1 in Some (((cur, d.2), i) :: new, σ')
    end.
  Definition partition (args : list oid) (keys : list nat) (σ : cstate) : option (bool * cstate) :=
    '(_, σ') ← foldl partition_step (Some ([], σ)) (zip args keys);
    Some (negb (bool_decide (length (leads σ') = length (leads σ))), σ').

  (** structural-node.hpp, region.hpp RegionArgument::input(): the origin of the input of argument i, if it has one *)
  Definition arg_origin (k : kind) (ins : list oid) (r : region) (i : nat) : option oid :=
    match k with
    | Gamma => match i with 0 => None | _ => ins !! i end
    | Lambda n => if decide (i < n) then None else ins !! (i - n)
    | Phi => if decide (i < length (rres r)) then None else ins !! (i - length (rres r))
    | _ => ins !! i
    end.
  (** 637-680 markSubregionsFromInputs; each subregion comes with what marks it *)
  Definition sub_keys (k : kind) (ins : list oid) (r : region) (σ : cstate) : option (list nat) :=
    mapM (fun i => match arg_origin k ins r i with Some x => cmap σ !! x | None => Some (length (leads σ) + i) end) (seq 0 (length (rargs r))).
  Definition mark_sub (k : kind) (ins : list oid) (st : option (bool * cstate)) (d : region * (cstate -> option cstate)) : option (bool * cstate) :=
    '(ch, σ) ← st;
    match rargs d.1 with
    | [] => σ' ← d.2 σ; Some (ch, σ')
    | _ => keys ← sub_keys k ins d.1 σ; '(c, σ1) ← partition (rargs d.1) keys σ;
           if (c : bool) then σ2 ← d.2 σ1; Some (true, σ2) else Some (ch, σ1)
    end.
  Definition mark_subs (k : kind) (ins : list oid) (l : list (region * (cstate -> option cstate))) (σ : cstate) : option (bool * cstate) :=
    foldl (mark_sub k ins) (Some (false, σ)) l.

  (** 696-731 tryGetGammaExitVarCongruenceSet for exit variable k: [None] when the null input of argument 0 is dereferenced *)
  Fixpoint exit_var_set (σ : cstate) (ins : list oid) (k : nat) (subs : list region) (shared : option nat) : option (option nat) :=
    match subs with
    | [] => Some shared
    | r :: subs =>
        x ← rres r !! k;
        match position x (rargs r) with
        | None => Some None
        | Some i => z ← arg_origin Gamma ins r i; j ← cmap σ !! z;
            match shared with
            | None => exit_var_set σ ins k subs (Some j)
            | Some j' => if decide (j' = j) then exit_var_set σ ins k subs shared else Some None
            end
        end
    end.
  (** 765-786 areGammaExitVariablesCongruent *)
  Definition exit_congruent (σ : cstate) (subs : list region) (k k' : nat) : bool :=
    forallb (fun r => match rres r !! k, rres r !! k' with Some x, Some y => same_set σ x y | _, _ => false end) subs.
  (** 798-819 insertGammaExitVarInHashmap, 834-861 lookupOrInsertGammaExitVarInHashmap: congruent exit variables have the same hash, so that all
      entries congruent to the given one are reached by probing; entries are never removed. The table is the list of its entries, exit variables. *)
  Definition lookup_exit (subs : list region) (k : nat) (o : oid) (outs : list oid) (table : list nat) (σ : cstate) : option (list nat * cstate) :=
    match choose σ (filter (fun k' => exit_congruent σ subs k k' = true) table) with
    | Some k' => o' ← outs !! k'; i ← cmap σ !! o'; σ' ← add_follower i o σ; Some (table, σ')
    | None => Some (k :: table, (get_or_create σ o).2)
    end.
  (** 872-935 markGamma: one exit variable, after the subregions *)
  Definition mark_exit_var (ins outs : list oid) (subs : list region) (st : option (list nat * cstate)) (d : nat * oid) : option (list nat * cstate) :=
    let '(k, o) := d in
    '(table, σ) ← st;
    let fresh (skip : bool) :=
      inv ← (if skip then Some None else exit_var_set σ ins k subs None);
      match inv with
      | Some i => σ' ← add_follower i o σ; Some (table, σ')
      | None => lookup_exit subs k o outs table σ
      end in
    match cmap σ !! o with
    | None => fresh false
    | Some i => l ← leads σ !! i;
        if decide (l = o) then Some (k :: table, σ)
        else match position l outs with
             | Some k' => if exit_congruent σ subs k k' then Some (table, σ) else fresh true
             | None => fresh false
             end
    end.
  Definition mark_exit_vars (ins outs : list oid) (subs : list region) (σ : cstate) : option cstate :=
    '(_, σ') ← foldl (mark_exit_var ins outs subs) (Some ([], σ)) (imap pair outs); Some σ'.

  (** 958-979 the loop of markTheta; [fuel]: the number of iterations, every one but the last adds a set for an argument *)
  Fixpoint theta_loop (fuel : nat) (r : region) (f : cstate -> option cstate) (σ : cstate) : option cstate :=
    match fuel with
    | 0 => None
    | S fuel => keys ← mapM (fun x => cmap σ !! x) (tail (rres r));
        '(ch, σ1) ← partition (rargs r) keys σ;
        if (ch : bool) then σ2 ← f σ1; theta_loop fuel r f σ2 else Some σ1
    end.
  (** 983-1023 isOutputInvariant, for loop variable i *)
  Definition output_invariant (σ : cstate) (ins : list oid) (r : region) (i : nat) : option (option oid) :=
    pre ← rargs r !! i; post ← rres r !! S i; inp ← ins !! i;
    if decide (post = pre) then Some (Some inp)
    else s ← cmap σ !! post; l ← leads σ !! s;
      if decide (l = pre) then Some (Some inp)
      else match position l (rargs r) with
           | None => Some None
           | Some j => post' ← rres r !! S j; inp' ← ins !! j;
               if decide (post' = l) then Some (Some inp')
               else s' ← cmap σ !! post'; l' ← leads σ !! s'; Some (if decide (l' = l) then Some inp' else None)
           end.
  (** 1026-1057 the outputs of the theta node; resultToOutputSetMapping *)
  Definition mark_theta_output (only : bool) (ins : list oid) (r : region) (st : option (list (nat * nat) * cstate)) (d : nat * oid) : option (list (nat * nat) * cstate) :=
    let '(i, o) := d in
    '(map, σ) ← st;
    inv ← output_invariant σ ins r i;
    match inv with
    | Some x => s ← cmap σ !! x; σ' ← add_follower s o σ; Some (map, σ')
    | None =>
        if only then Some (map, σ)
        else post ← rres r !! S i; s ← cmap σ !! post;
          match lookup_key s map with
          | Some j => σ' ← add_follower j o σ; Some (map, σ')
          | None => let '(j, σ') := get_or_create σ o in Some ((s, j) :: map, σ')
          end
    end.
  Definition mark_theta_outputs (only : bool) (ins outs : list oid) (r : region) (σ : cstate) : option cstate :=
    '(_, σ') ← foldl (mark_theta_output only ins r) (Some ([], σ)) (imap pair outs); Some σ'.

  (** 1060-1103 markStructuralNode, 872-935 markGamma, 948-1058 markTheta *)
  Fixpoint mark_node (n : node) : cstate -> option cstate :=
    let 'Node id k ins outs subs := n in
    let l := map (fun r => (r, mark_region r)) subs in
    fun σ =>
    match k with
    | Gamma => '(_, σ1) ← mark_subs k ins l σ; mark_exit_vars ins outs subs σ1
    | Theta => '(ch, σ1) ← mark_subs k ins l σ;
        let r := nth 0 subs region0 in
        σ2 ← (if (ch : bool) then theta_loop (S (length (rargs r))) r (nth 0 (map mark_region subs) (fun _ => None)) σ1 else Some σ1);
        mark_theta_outputs (negb ch) ins outs r σ2
    | Lambda _ | Phi => '(_, σ1) ← mark_subs k ins l σ; Some (make_leaders outs σ1)
    | Delta => Some (make_leaders outs σ)
    | Simple _ | Load _ => Some σ
    end
  with mark_region (r : region) : cstate -> option cstate :=
    let 'Region args res ns := r in
    let l := map (fun n => (n, mark_node n)) ns in
    fun σ => visit_nodes ns l [] σ.

  (** 543-557 markGraphImports, 1200-1213 the mark phase *)
  Definition mark (t : region) : option cstate := mark_region t (make_leaders (rargs t) cstate0).
  (** 1139-1197 the divert phase: the users of every output are diverted to the leader of its set. A leader is its own leader, so the order in
      which the outputs are handled does not matter. Outputs in delta nodes have no set. *)
  Definition cne (t : region) : option region := σ ← mark t; Some (dregion (lead σ) t).
End Cne.
