(** The reducibility test. jlm/llvm/ir/cfg-structure.cpp *)
From stdpp Require Import tactics relations base list list_numbers fin_sets gmap fin_maps.

(** the copy that copy_structural makes (cfg-structure.cpp:146-172): nodes with the sinks of their out-edges, entry and exit among them, and the nodes
    in to_visit. A node that is not in to_visit any more stays in the graph *)
Notation graph := (gmap nat (list nat)) (only parsing).
Definition in_edges (g : graph) (n : nat) : list nat := p ← map_to_list g; (fun _ => p.1) <$> filter (fun m => m = n) p.2.
(** cfg-structure.cpp:262-287 is_T1, is_T2 *)
Definition is_T1 (g : graph) (n : nat) : bool := bool_decide (n ∈ in_edges g n).
Definition is_T2 (g : graph) (n : nat) : option nat := match in_edges g n with [] => None | p :: l => if forallb (fun q => bool_decide (q = p)) l then Some p else None end.
(** cfg-structure.cpp:380-393 reduce_T1: the first self-loop edge is removed *)
Fixpoint remove_first (n : nat) (l : list nat) : list nat := match l with [] => [] | m :: l => if decide (m = n) then l else m :: remove_first n l end.
Definition reduce_T1 (g : graph) (n : nat) : graph := alter (remove_first n) n g.
(** cfg-structure.cpp:395-407 reduce_T2: the in-edges of the predecessor p are diverted to the node, the out-edges of p are removed *)
Definition reduce_T2 (g : graph) (n p : nat) : graph := <[p := ([] : list nat)]> ((fun l : list nat => (fun m => if decide (m = p) then n else m) <$> l) <$> g).
(** cfg-structure.cpp:460-478 reduce_reducible *)
Definition reduce_reducible (g : graph) (n : nat) (todo : gset nat) : option (graph * gset nat) :=
  if is_T1 g n then Some (reduce_T1 g n, todo) else match is_T2 g n with Some p => Some (reduce_T2 g n p, todo ∖ {[p]}) | None => None end.
(** cfg-structure.cpp:590-613 reduce: nodes of to_visit are tried in any order until none is reduced; [answers g todo b]: the result can be b *)
Inductive answers : graph -> gset nat -> bool -> Prop :=
  | answers_step g todo n g' todo' b : n ∈ todo -> reduce_reducible g n todo = Some (g', todo') -> answers g' todo' b -> answers g todo b
  | answers_end g todo : (forall n, n ∈ todo -> reduce_reducible g n todo = None) -> answers g todo (bool_decide (size todo = 1)).
(** cfg-structure.cpp:628-632 is_reducible *)
Definition is_reducible (g : graph) (b : bool) : Prop := answers g (dom g) b.

(** Reducibility (Hecht and Ullman): remove a self-loop; merge a node that is not the entry into its only predecessor *)
Inductive transform (entry : nat) (g : graph) : graph -> Prop :=
  | T1 n l : g !! n = Some l -> n ∈ l -> transform entry g (<[n := filter (fun m => m <> n) l]> g)
  | T2 n p l k : n <> entry -> n <> p -> g !! n = Some l -> g !! p = Some k -> (forall q m, g !! q = Some m -> n ∈ m -> q = p) -> n ∈ k ->
      transform entry g (delete n (<[p := filter (fun m => m <> n) k ++ l]> g)).
Definition reducible (entry : nat) (g : graph) : Prop := exists g', rtc (transform entry) g g' /\ g' = {[entry := []]}.

(** exploration of all the orders *)
Definition successors (g : graph) (todo : gset nat) : list (graph * gset nat) := omap (fun n => reduce_reducible g n todo) (elements todo).
Fixpoint explore (b : bool) (fuel : nat) (g : graph) (todo : gset nat) : bool :=
  match fuel with
  | 0 => false
  | S fuel => match successors g todo with
              | [] => bool_decide (bool_decide (size todo = 1) = b)
              | l => forallb (fun st => explore b fuel st.1 st.2) l
              end
  end.
Lemma explore_sound b fuel g todo : explore b fuel g todo = true -> forall c, answers g todo c -> c = b.
Proof.
  revert g todo. induction fuel as [|fuel IH]; intros g todo; [done|]. cbn [explore]. intros H c Hc.
  destruct Hc as [g todo n g' todo' c Hn Hr Hc|g todo Hnone].
  - assert (Hin : (g', todo') ∈ successors g todo). { unfold successors. apply elem_of_list_omap. exists n. split; [by apply elem_of_elements|done]. }
    destruct (successors g todo) as [|st l]; [by apply elem_of_nil in Hin|]. rewrite forallb_forall in H. apply elem_of_list_In in Hin. exact (IH _ _ (H _ Hin) _ Hc).
  - destruct (successors g todo) as [|st l] eqn:E; [by apply bool_decide_eq_true in H|]. exfalso.
    assert (Hin : st ∈ successors g todo) by (rewrite E; by left). unfold successors in Hin. apply elem_of_list_omap in Hin as (n & Hn%elem_of_elements & Hr).
    rewrite Hnone in Hr; done.
Qed.

(** all the transformations of a graph *)
Definition transforms (entry : nat) (g : graph) : list graph :=
  (p ← map_to_list g; if decide (p.1 ∈ p.2) then [<[p.1 := filter (fun m => m <> p.1) p.2]> g] else []) ++
  (x ← map_to_list g; y ← map_to_list g;
     if decide (x.1 <> entry /\ x.1 <> y.1 /\ x.1 ∈ y.2 /\ Forall (fun q => x.1 ∈ q.2 -> q.1 = y.1) (map_to_list g))
     then [delete x.1 (<[y.1 := filter (fun m => m <> x.1) y.2 ++ x.2]> g)] else []).
Lemma transforms_complete entry g g' : transform entry g g' -> g' ∈ transforms entry g.
Proof.
  intros [n l Hn Hin|n p l k Hne Hnp Hn Hp Hone Hin]; unfold transforms; apply elem_of_app.
  - left. apply elem_of_list_bind. exists (n, l). rewrite elem_of_map_to_list. split; [|done]. cbn. rewrite decide_True by done. by left.
  - right. apply elem_of_list_bind. exists (n, l). rewrite elem_of_map_to_list. split; [|done]. apply elem_of_list_bind. exists (p, k). rewrite elem_of_map_to_list. split; [|done].
    cbn. rewrite decide_True; [by left|]. repeat split; [done..|]. apply Forall_forall. intros [q m] Hq%elem_of_map_to_list. cbn. intros Hm. exact (Hone q m Hq Hm).
Qed.
Lemma closed_not_reducible entry g (L : list graph) :
  g ∈ L -> forallb (fun h => forallb (fun h' => bool_decide (h' ∈ L)) (transforms entry h)) L = true -> forallb (fun h => bool_decide (h <> {[entry := []]})) L = true -> ~ reducible entry g.
Proof.
  intros Hg Hcl Hne (g' & Hrtc & ->). rewrite forallb_forall in Hcl. rewrite forallb_forall in Hne.
  assert (H : forall a b, rtc (transform entry) a b -> a ∈ L -> b ∈ L).
  { induction 1 as [|a b c Hab _ IH]; [done|]. intros Ha. apply IH. apply elem_of_list_In in Ha. specialize (Hcl _ Ha). rewrite forallb_forall in Hcl.
    apply transforms_complete in Hab. apply elem_of_list_In in Hab. specialize (Hcl _ Hab). by apply bool_decide_eq_true in Hcl. }
  specialize (H _ _ Hrtc Hg). apply elem_of_list_In in H. specialize (Hne _ H). by apply bool_decide_eq_true in Hne.
Qed.
(** an execution of [reduce], the nodes in the given order *)
Fixpoint reduce_by (ns : list nat) (g : graph) (todo : gset nat) : option (graph * gset nat) :=
  match ns with [] => Some (g, todo) | n :: ns => if decide (n ∈ todo) then '(g', todo') ← reduce_reducible g n todo; reduce_by ns g' todo' else None end.
Lemma reduce_by_answers ns g todo g' todo' b : reduce_by ns g todo = Some (g', todo') -> answers g' todo' b -> answers g todo b.
Proof.
  revert g todo. induction ns as [|n ns IH]; intros g todo; cbn [reduce_by]; [by intros [= -> ->]|]. destruct (decide (n ∈ todo)) as [Hn|]; [|done].
  destruct (reduce_reducible g n todo) as [[g1 t1]|] eqn:E; cbn; [|done]. intros H Hb. eapply answers_step; [done|done|]. by eapply IH.
Qed.

(** an if-then-else *)
Definition diamond : graph := {[0 := [2]; 2 := [3; 4]; 3 := [5]; 4 := [5]; 5 := [1]; 1 := []]}.
(** a loop with two entries *)
Definition two_entries : graph := {[0 := [2]; 2 := [3; 4]; 3 := [4]; 4 := [3; 1]; 1 := []]}.
