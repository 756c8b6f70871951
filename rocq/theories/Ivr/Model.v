(** Model of jlm/llvm/opt/InvariantValueRedirection.cpp: gamma, theta and load redirection.
    Not modelled here: redirectCallOutputs (CallRedirect) and redirectThetaGammaOutputs (ThetaGamma) (the options enableCallOutputRedirection and
    enableThetaGammaCorrelationRedirection are off). Volatile loads are [Simple] operations here and are left alone. *)
From stdpp Require Import base list list_numbers fin_sets gmap.
From Verif.Rvsdg Require Import Model Spec.
From Verif.Dne Require Import Model.

(** InvariantValueRedirection.hpp:85-92 Configuration *)
Record config := Config { on_gamma : bool; on_theta : bool; on_load : bool }.

Fixpoint position (o : oid) (l : list oid) : option nat :=
  match l with [] => None | x :: l => if decide (x = o) then Some 0 else S <$> position o l end.
(** gamma.cpp:514-534 GetExternalOriginOf: result k of the branch r is an argument of the branch, and not the match content (argument 0) *)
Definition external_origin (ins : list oid) (k : nat) (r : region) : option oid :=
  x ← rres r !! k; i ← position x (rargs r); match i with 0 => None | S _ => ins !! i end.
(** gamma.cpp:508-552 GetGammaInvariantOrigin *)
Definition invariant_origin (ins : list oid) (subs : list region) (k : nat) : option oid :=
  match subs with
  | [] => None
  | r :: rs => z ← external_origin ins k r;
      if forallb (fun r' => bool_decide (external_origin ins k r' = Some z)) rs then Some z else None
  end.
(** theta.hpp:227-230 ThetaLoopVarIsInvariant, for loop variable i *)
Definition loop_var_invariant (r : region) (i : nat) : bool :=
  match rargs r !! i, rres r !! S i with Some pre, Some post => bool_decide (post = pre) | _, _ => false end.

Section Ivr.
  Context (cfg : config).
  (** the loop variables of I/O state type, named by their output *)
  Context (io : oid -> bool).
  (** region.hpp Nodes(): the order in which the nodes of a region are visited, by identity *)
  Context (ord : list node -> list nat).

  (** What is diverted when node n is visited: redirectGammaOutputs 199-209, redirectThetaOutputs 211-225, redirectLoadMemoryStates 402-412.
      The list is computed before the first divert; the diverts do not change the inputs or subregions of n, as none of its outputs is one of its origins. *)
  Definition moves (n : node) (ns : list node) (res : list oid) : list (oid * oid) :=
    let 'Node id k ins outs subs := n in
    match k with
    | Gamma => if on_gamma cfg then omap (fun '(k, o) => z ← invariant_origin ins subs k; Some (o, z)) (imap pair outs) else []
    | Theta => if on_theta cfg then
                 omap (fun '(i, o) => if negb (io o) && loop_var_invariant (nth 0 subs region0) i then x ← ins !! i; Some (o, x) else None) (imap pair outs)
               else []
    | Load _ => if on_load cfg && negb (is_used (nth 0 outs 0) ns res) then tail (zip outs ins) else []
    | _ => []
    end.
  Definition divert_all (l : list (oid * oid)) (st : list node * list oid) : list node * list oid :=
    foldl (fun st '(o, x) => divert_users o x st.1 st.2) st l.
  Definition visit (st : list node * list oid) (id : nat) : list node * list oid :=
    match list_find (fun n => nid n = id) st.1 with
    | Some (_, n) => divert_all (moves n st.1 st.2) st
    | None => st
    end.
  (** 128-183 redirectInRegion, 185-197 redirectInSubregions. A subregion can be handled before all the nodes of the region are visited, since that
      neither reads nor changes the region around it. *)
  Fixpoint redirect_node (n : node) : node :=
    let 'Node id k ins outs subs := n in
    match k with Gamma | Theta => Node id k ins outs (map redirect_region subs) | _ => n end
  with redirect_region (r : region) : region :=
    let 'Region args res ns := r in
    let st := foldl visit (map redirect_node ns, res) (ord ns) in
    Region args st.2 (prune_list st.2 st.1).

  (** 84-126 redirectInRootRegion, Phi.cpp:225-248 ExtractLambdaNodes *)
  Fixpoint redirect_top (n : node) : node :=
    let 'Node id k ins outs subs := n in
    match k with
    | Lambda _ => Node id k ins outs (map redirect_region subs)
    | Phi => Node id k ins outs (map (fun r => let 'Region args res ns := r in Region args res (map redirect_top ns)) subs)
    | _ => n
    end.
  (** 48-66 Run *)
  Definition ivr (t : region) : region := let 'Region args res ns := t in Region args res (map redirect_top ns).
End Ivr.
