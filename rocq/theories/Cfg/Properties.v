(** Control flow graphs: the theorems. *)
From stdpp Require Import tactics relations base list list_numbers fin_sets gmap fin_maps.
From Verif.Construct Require Import Model Spec.
From Verif.Cfg Require Import Model Spec ProofsBase ProofsStraighten ProofsComplete ProofsPurge ProofsPrune ProofsSsa1 ProofsSsa2 ProofsSsa3 ProofsCheck Reducible.

(** C54: straightening never fails; the result is valid and behaves as before, in whatever order the blocks are visited *)
Theorem straighten_correct l g : valid g ->
  exists g', straighten l g = Some g' /\ valid g' /\
    forall (V : Type) (ctl : V -> option nat) sem truth σ σ', executes ctl sem truth g σ σ' <-> executes ctl sem truth g' σ σ'.
Proof. apply straighten_ok. Qed.
(** C54: after one pass over all blocks there is no block left whose only edge leads to a block without phis that has no other predecessor *)
Theorem straighten_exhaustive l g g' : valid g -> (forall n, is_Some (blocks g !! n) -> n ∈ l) -> straighten l g = Some g' -> forall n s, ~ linear_pair g' n s.
Proof.
  intros Hv Hall Hs n s Hl. destruct (straighten_complete l g g' [] Hv) as (H1 & H2); [intros ? ? H; by apply elem_of_nil in H|done|].
  apply (H2 n s); [|done]. right. apply Hall. apply H1. destruct Hl as (b & c & Hb & _). eauto.
Qed.

(** C55: purging a graph without phis never fails; the result is valid and behaves as before; the blocks that are left have the instructions they had *)
Theorem purge_correct l g : valid g -> no_phis g ->
  exists g', purge l g = Some g' /\ valid g' /\ no_phis g' /\
    (forall n b', blocks g' !! n = Some b' -> exists b, blocks g !! n = Some b /\ code b' = code b) /\
    forall (V : Type) (ctl : V -> option nat) sem truth σ σ', executes ctl sem truth g σ σ' <-> executes ctl sem truth g' σ σ'.
Proof.
  intros Hv Hn. destruct (purge_ok l g Hv Hn) as (g' & H1 & H2 & H3 & H4 & H5 & _). exists g'. repeat (split; [done|]). split; [|done].
  intros n b' Hb. destruct (H5 _ _ Hb) as (b & Hb0 & Hc & _). eauto.
Qed.
(** C55: after one pass over all blocks, an empty block is an endless loop *)
Theorem purge_exhaustive l g g' : valid g -> no_phis g -> (forall n, is_Some (blocks g !! n) -> n ∈ l) -> purge l g = Some g' ->
  forall n b', blocks g' !! n = Some b' -> code b' = [] -> succ b' = [n].
Proof.
  intros Hv Hn Hall Hp n b' Hb Hc. destruct (purge_ok l g Hv Hn) as (g1 & H1 & H2 & H3 & H4 & H5 & H6). assert (g1 = g') as -> by congruence.
  apply H6; [done| |done]. apply Hall. destruct (H5 _ _ Hb) as (b & Hb0 & _). eauto.
Qed.

(** C56: the marking of live nodes ends whatever order is chosen, its assertion holds in every state it can reach, and it marks the nodes with a path from the entry *)
Theorem livenodes_correct g : valid g -> (exists l, live g {[entry]} ∅ l) /\ (forall l, live g {[entry]} ∅ l -> forall n, n ∈ l <-> reachable g n) /\
  forall todo seen n, rtc (live_step g) ({[entry]}, ∅) (todo, seen) -> n ∈ todo -> n ∉ seen.
Proof.
  intros Hv. split; [by apply live_exists|]. split; [intros l Hl; by apply live_reachable|].
  intros todo seen n Hr H1 H2. pose proof (live_disjoint g _ Hr) as Hd. cbn in Hd. by apply (Hd n).
Qed.
(** C56: pruning keeps the blocks that have a path from the entry and no others; the result is valid, every block has a predecessor, and it behaves as before *)
Theorem prune_correct order l g : valid g -> live g {[entry]} ∅ l -> (forall x, order x ≡ₚ elements x) ->
  exists g', prune order l g = Some g' /\ valid g' /\ closed g' /\
    (forall n, is_Some (blocks g' !! n) <-> is_Some (blocks g !! n) /\ reachable g n) /\
    forall (V : Type) (ctl : V -> option nat) sem truth σ σ', executes ctl sem truth g σ σ' <-> executes ctl sem truth g' σ σ'.
Proof.
  intros Hv Hl Ho. destruct (prune_result g l order Hv Hl Ho) as (g' & H1 & H2 & H3). exists g'. split; [done|].
  split; [by eapply pruned_valid|]. split; [by eapply pruned_closed|]. split.
  - intros n. rewrite H3, <-(live_reachable g Hv l Hl). case_decide as Hn; [rewrite fmap_is_Some; tauto|]. split; [by intros (? & [=])|]. by intros [_ ?].
  - intros. by eapply pruned_executes.
Qed.

(** C57: SSA destruction of a graph whose first block has no phi and is entered from the entry only: it never fails, the result is valid and has no phis,
    and it computes the same variables, if the results of phis have the undefined value at first. s and v: node and variable numbers that are not used yet *)
Theorem destruct_ssa_correct undef order g s v : valid g -> unused g s v -> (forall x, order x ≡ₚ elements x) ->
  (exists f, blocks g !! start g = Some f /\ has_phi f = false) -> (forall p, edge g p (start g) -> p = entry) ->
  exists g' s' v', destruct_ssa undef order g s v = Some (g', s', v') /\ valid g' /\ no_phis g' /\
    forall (V : Type) (ctl : V -> option nat) sem truth (σ : nat -> V), (forall r, phi_result g r -> sem (undef r) [] = Some [σ r]) ->
      (forall σ', executes ctl sem truth g σ σ' -> exists τ', (forall x, x < v -> σ' x = τ' x) /\ executes ctl sem truth g' σ τ') /\
      (forall τ', executes ctl sem truth g' σ τ' -> exists σ', (forall x, x < v -> σ' x = τ' x) /\ executes ctl sem truth g σ σ').
Proof. apply destruct_ssa_ok. Qed.

(** C58: the claim of cfg-structure.hpp:188-196 *)
Definition is_reducible_claim : Prop := forall g b, is_reducible g b -> (b = true <-> reducible entry g).
(** C58: an if-then-else is reducible, but the answer is always no *)
Theorem is_reducible_refuted : reducible entry diamond /\ (forall b, is_reducible diamond b -> b = false) /\ ~ is_reducible_claim.
Proof.
  assert (Hr : reducible entry diamond).
  { set (g1 := {[0 := [3; 4]; 3 := [5]; 4 := [5]; 5 := [1]; 1 := []]} : gmap nat (list nat)).
    set (g2 := {[0 := [4; 5]; 4 := [5]; 5 := [1]; 1 := []]} : gmap nat (list nat)).
    set (g3 := {[0 := [5; 5]; 5 := [1]; 1 := []]} : gmap nat (list nat)).
    set (g4 := {[0 := [1]; 1 := []]} : gmap nat (list nat)).
    assert (Hone : forall (g : gmap nat (list nat)) n p, forallb (fun x => bool_decide (n ∈ x.2 -> x.1 = p)) (map_to_list g) = true -> forall q m, g !! q = Some m -> n ∈ m -> q = p).
    { intros g n p H q m Hq Hm. rewrite forallb_forall in H. assert (Hin : (q, m) ∈ map_to_list g) by by apply elem_of_map_to_list.
      apply elem_of_list_In in Hin. specialize (H _ Hin). apply bool_decide_eq_true in H. by apply H. }
    exists {[entry := []]}. split; [|done].
    apply rtc_l with g1; [replace g1 with (delete 2 (<[0 := filter (fun m => m <> 2) [2] ++ [3; 4]]> diamond)) by (apply (bool_decide_eq_true_1 _); by vm_compute); apply (T2 0 diamond 2 0 [3; 4] [2]); [lia|lia|done|done|apply Hone; by vm_compute|set_solver]|].
    apply rtc_l with g2; [replace g2 with (delete 3 (<[0 := filter (fun m => m <> 3) [3; 4] ++ [5]]> g1)) by (apply (bool_decide_eq_true_1 _); by vm_compute); apply (T2 0 g1 3 0 [5] [3; 4]); [lia|lia|done|done|apply Hone; by vm_compute|set_solver]|].
    apply rtc_l with g3; [replace g3 with (delete 4 (<[0 := filter (fun m => m <> 4) [4; 5] ++ [5]]> g2)) by (apply (bool_decide_eq_true_1 _); by vm_compute); apply (T2 0 g2 4 0 [5] [4; 5]); [lia|lia|done|done|apply Hone; by vm_compute|set_solver]|].
    apply rtc_l with g4; [replace g4 with (delete 5 (<[0 := filter (fun m => m <> 5) [5; 5] ++ [1]]> g3)) by (apply (bool_decide_eq_true_1 _); by vm_compute); apply (T2 0 g3 5 0 [1] [5; 5]); [lia|lia|done|done|apply Hone; by vm_compute|set_solver]|].
    apply rtc_once. replace ({[entry := []]} : gmap nat (list nat)) with (delete 1 (<[0 := filter (fun m => m <> 1) [1] ++ []]> g4)) by (apply (bool_decide_eq_true_1 _); by vm_compute).
    apply (T2 0 g4 1 0 [] [1]); [lia|lia|done|done|apply Hone; by vm_compute|set_solver]. }
  assert (Ha : forall b, is_reducible diamond b -> b = false). { intros b. apply (explore_sound false 20). by vm_compute. }
  split; [done|]. split; [done|]. intros Hclaim.
  assert (Hex : exists b, is_reducible diamond b).
  { destruct (reduce_by [2; 1; 3] diamond (dom diamond)) as [[g' todo']|] eqn:E.
    - exists (bool_decide (size todo' = 1)). unfold is_reducible. eapply reduce_by_answers; [exact E|]. constructor. intros n Hn.
      assert (H : forallb (fun n => bool_decide (reduce_reducible g' n todo' = None)) (elements todo') = true).
      { apply (f_equal (fun o => match o with Some (a, b) => forallb (fun n => bool_decide (reduce_reducible a n b = None)) (elements b) | None => true end)) in E.
        rewrite <-E. by vm_compute. }
      rewrite forallb_forall in H. specialize (H n). rewrite bool_decide_eq_true in H. apply H. apply elem_of_list_In. by apply elem_of_elements.
    - exfalso. apply (f_equal (fun o => match o with Some _ => true | None => false end)) in E. vm_compute in E. discriminate. }
  destruct Hex as (b & Hb). pose proof (Ha _ Hb). subst b. apply Hclaim in Hb. destruct Hb as (_ & Hb). by specialize (Hb Hr).
Qed.
(** C58: a loop with two entries is not reducible, but the answer can be yes *)
Theorem is_reducible_unsound_refuted : ~ reducible entry two_entries /\ is_reducible two_entries true.
Proof.
  split.
  - set (L := [two_entries; {[0 := [3; 4]; 3 := [4]; 4 := [3; 1]; 1 := []]}; {[0 := [2]; 2 := [3; 4]; 3 := [4]; 4 := [3]]}; {[0 := [3; 4]; 3 := [4]; 4 := [3]]}] : list (gmap nat (list nat))).
    apply (closed_not_reducible entry two_entries L); [by left|by vm_compute|by vm_compute].
  - unfold is_reducible. destruct (reduce_by [2; 1; 3; 1] two_entries (dom two_entries)) as [[g' todo']|] eqn:E.
    + assert (H : forallb (fun n => bool_decide (reduce_reducible g' n todo' = None)) (elements todo') = true /\ bool_decide (size todo' = 1) = true).
      { apply (f_equal (fun o => match o with Some (a, b) => forallb (fun n => bool_decide (reduce_reducible a n b = None)) (elements b) && bool_decide (size b = 1) | None => true end)) in E.
        apply andb_true_iff. rewrite <-E. by vm_compute. }
      destruct H as (H & Hs). eapply reduce_by_answers; [exact E|]. rewrite <-Hs. constructor. intros n Hn.
      rewrite forallb_forall in H. specialize (H n). rewrite bool_decide_eq_true in H. apply H. apply elem_of_list_In. by apply elem_of_elements.
    + exfalso. apply (f_equal (fun o => match o with Some _ => true | None => false end)) in E. vm_compute in E. discriminate.
Qed.

(** Graphs that meet the hypotheses. do { if (x) y = f(x) else y = x; x = g(y) } while (x), in SSA form: block 2 sets x0 and jumps to 3; 3 merges x,
    branches to the empty block 4 and to 5; 6 merges y and computes the next x; 7 cannot be reached, and jumps to 6 *)
Definition ex_ssa : cfg := Cfg (list_to_map [
  (2, Model.Block [Tac (Op 0 [] [1])] [3]);
  (3, Model.Block [Phi 2 [(2, 1); (8, 5)]; Tac (Op 1 [2] [3]); Tac (BranchOn 3)] [4; 5]);
  (4, Model.Block [] [6]);
  (5, Model.Block [Tac (Op 2 [2] [4])] [6]);
  (6, Model.Block [Phi 6 [(4, 2); (5, 4); (7, 1)]; Phi 9 [(4, 1); (5, 2); (7, 2)]; Tac (Op 3 [6; 9] [5])] [8]);
  (8, Model.Block [Tac (Op 1 [5] [7]); Tac (BranchOn 7)] [1; 3]);
  (7, Model.Block [] [6])]) 2.
Example ex_ssa_valid : valid ex_ssa.
Proof. apply check_valid. by vm_compute. Qed.
(** what the passes do with it *)
Definition view (g : cfg) : list (nat * (list instr * list nat)) := (fun p => (p.1, (code p.2, succ p.2))) <$> map_to_list (blocks g).
#[local] Instance tac_eq_dec : EqDecision tac.
Proof. solve_decision. Defined.
#[local] Instance instr_eq_dec : EqDecision instr.
Proof. solve_decision. Defined.
Example ex_straighten : (fun g => bool_decide ((8, ([Phi 6 [(4, 2); (5, 4); (7, 1)]; Phi 9 [(4, 1); (5, 2); (7, 2)]; Tac (Op 3 [6; 9] [5]); Tac (Op 1 [5] [7]); Tac (BranchOn 7)], [1; 3])) ∈ view g)
  && bool_decide (length (view g) = 6)) <$> straighten [2; 3; 4; 5; 6; 7; 8] ex_ssa = Some true.
Proof. by vm_compute. Qed.
Example ex_ssa_hypotheses : unused ex_ssa 9 10 /\ (exists f, blocks ex_ssa !! start ex_ssa = Some f /\ has_phi f = false) /\ forall p, edge ex_ssa p (start ex_ssa) -> p = entry.
Proof.
  split; [apply check_unused_ok; by vm_compute|]. split; [eexists; split; [reflexivity|reflexivity]|].
  intros p Hp%elem_edges. assert (H : forallb (fun e => bool_decide (e.2 = start ex_ssa -> e.1 = entry)) (edges ex_ssa) = true) by by vm_compute.
  rewrite forallb_forall in H. apply elem_of_list_In in Hp. specialize (H _ Hp). apply bool_decide_eq_true in H. by apply H.
Qed.
(** block 7 is pruned, and its operands with it *)
Example ex_prune : (fun g => bool_decide ((6, ([Phi 6 [(4, 2); (5, 4)]; Phi 9 [(4, 1); (5, 2)]; Tac (Op 3 [6; 9] [5])], [8])) ∈ view g) && bool_decide (length (view g) = 6)) <$>
  prune elements ({[0; 2; 3; 4; 5; 6; 8; 1]}) ex_ssa = Some true.
Proof. by vm_compute. Qed.
(** the graph can be executed: two iterations of the loop; and so can what SSA destruction makes of it *)
Definition ex_sem (op : nat) (vs : list nat) : option (list nat) :=
  match op, vs with 0, [] => Some [3] | 1, [x] => Some [if decide (x = 0) then 0 else 1] | 2, [x] => Some [x - 1] | 3, [x; y] => Some [x - 1] | 7, [] => Some [0] | _, _ => None end.
Example ex_executes : exists σ', executes (fun x => Some x) ex_sem (fun x => bool_decide (x <> 0)) ex_ssa (fun _ => 0) σ' /\ bool_decide (σ' 5 = 0 /\ σ' 1 = 3 /\ σ' 9 = 1) = true.
Proof. apply (do_executes _ _ _ ex_ssa 20). by vm_compute. Qed.
Example ex_destruct : (fun st => (length (view st.1.1), bool_decide ((10, ([Tac (Assign 10 1)], [9])) ∈ view st.1.1))) <$> destruct_ssa (fun _ => 7) elements ex_ssa 9 10 = Some (14, true).
Proof. by vm_compute. Qed.
Example ex_destruct_executes : exists g' s' v' σ', destruct_ssa (fun _ => 7) elements ex_ssa 9 10 = Some (g', s', v') /\
  executes (fun x => Some x) ex_sem (fun x => bool_decide (x <> 0)) g' (fun _ => 0) σ' /\ σ' 9 = 1.
Proof.
  destruct ex_ssa_hypotheses as (H1 & H2 & H3).
  destruct (destruct_ssa_correct (fun _ => 7) elements ex_ssa 9 10 ex_ssa_valid H1 (fun _ => Permutation_refl _) H2 H3) as (g' & s' & v' & K1 & _ & _ & K2).
  destruct ex_executes as (σ' & Hx & Hr). apply bool_decide_eq_true in Hr as (_ & _ & Hr).
  destruct (K2 _ (fun x => Some x) ex_sem (fun x => bool_decide (x <> 0)) (fun _ => 0)) as (K3 & _); [done|]. destruct (K3 _ Hx) as (τ' & K4 & K5).
  exists g', s', v', τ'. split; [done|]. split; [done|]. rewrite <-K4 by lia. exact Hr.
Qed.
(** a graph without phis for purge: x = 3; do { if (x) ; else x = x - 1; } while (x) with empty blocks, one of them an unreachable endless loop *)
Definition ex_plain : cfg := Cfg (list_to_map [
  (2, Model.Block [] [3]); (3, Model.Block [Tac (Op 0 [] [1])] [4]); (4, Model.Block [Tac (Op 1 [1] [2]); Tac (BranchOn 2)] [6; 5]);
  (5, Model.Block [Tac (Op 2 [1] [1])] [6]); (6, Model.Block [] [7]); (7, Model.Block [Tac (Op 1 [1] [2]); Tac (BranchOn 2)] [8; 4]); (8, Model.Block [] [1]); (9, Model.Block [] [10]); (10, Model.Block [] [9])]) 2.
Example ex_plain_ok : valid ex_plain /\ no_phis ex_plain /\ (fun g => (fst <$> view g, start g)) <$> purge [2; 3; 4; 5; 6; 7; 8; 9; 10] ex_plain = Some ([3; 7; 5; 4; 10], 3) /\
  exists σ', executes (fun x => Some x) ex_sem (fun x => bool_decide (x <> 0)) ex_plain (fun _ => 0) σ' /\ bool_decide (σ' 1 = 0) = true.
Proof.
  split; [apply check_valid; by vm_compute|]. split; [apply check_no_phis; by vm_compute|]. split; [by vm_compute|]. apply (do_executes _ _ _ ex_plain 30). by vm_compute.
Qed.

(** C55: with phis, removing an empty block leaves a phi with an operand from a node that is not a predecessor, and the check at the end of purge fails *)
Definition ex_purge_phi : cfg := Cfg (list_to_map [
  (2, Model.Block [Tac (Op 1 [1] [2]); Tac (BranchOn 2)] [3; 4]); (3, Model.Block [] [4]); (4, Model.Block [Phi 3 [(2, 1); (3, 2)]] [1])]) 2.
Theorem purge_phi_refuted : valid ex_purge_phi /\ exists g', purge [2; 3; 4] ex_purge_phi = Some g' /\ ~ valid g'.
Proof.
  split; [apply check_valid; by vm_compute|]. destruct (purge [2; 3; 4] ex_purge_phi) as [g'|] eqn:E.
  - exists g'. split; [done|]. intros Hv.
    assert (Hb : blocks g' !! 4 = Some (Model.Block [Phi 3 [(2, 1); (3, 2)]] [1]) /\ bool_decide ((3, 4) ∈ edges g') = false).
    { split.
      - apply (f_equal (fun o => g ← o; blocks g !! 4)) in E. cbn in E. rewrite <-E. by vm_compute.
      - apply (f_equal (fun o => match o with Some g => bool_decide ((3, 4) ∈ edges g) | None => false end)) in E. rewrite <-E. by vm_compute. }
    destruct Hb as (Hb & He). destruct (valid_blocks _ Hv _ _ Hb) as (_ & _ & _ & Hphi). destruct (Hphi 3 [(2, 1); (3, 2)]) as (_ & Hops); [by left|].
    apply bool_decide_eq_false in He. apply He. apply elem_edges, Hops. right. by left.
  - exfalso. apply (f_equal (fun o => match o with Some _ => true | None => false end)) in E. vm_compute in E. discriminate.
Qed.
(** C57: a loop that starts at the first block *)
Definition ex_first_phi : cfg := Cfg (list_to_map [(2, Model.Block [Phi 2 [(0, 1); (2, 3)]; Tac (Op 2 [2] [3]); Tac (BranchOn 3)] [1; 2])]) 2.
Theorem destruct_ssa_first_phi_refuted : valid ex_first_phi /\ unused ex_first_phi 3 4 /\ destruct_ssa (fun _ => 7) elements ex_first_phi 3 4 = None.
Proof. split; [apply check_valid; by vm_compute|]. split; [apply check_unused_ok; by vm_compute|]. by vm_compute. Qed.
