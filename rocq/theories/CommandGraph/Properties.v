(** C24: the order in which CommandGraph::Run executes the commands *)
From stdpp Require Import base list list_numbers relations.
From Verif.CommandGraph Require Import Model Spec Proofs Proofs2.

(** Every command reachable from the entry runs exactly once, no other command
    runs, the entry runs first, and every other command runs after at least one
    of its predecessors.  The loop terminates. *)
Theorem run_each_reachable_once (succ : nat -> list nat) (entry n fuel : nat) :
  finite_from succ entry n -> n <= fuel ->
  exists order, sort succ entry fuel = Some order /\ NoDup order /\
    (forall v, v ∈ order <-> reachable succ entry v) /\
    order !! 0 = Some entry /\
    (forall v, v ∈ order -> v <> entry -> exists u, edge succ u v /\ before order u v).
Proof.
  intros Hfin Hf. destruct (sort_inv succ entry n fuel Hfin Hf) as (order & s' & H1 & HI & Hn). exists order.
  split; [exact H1|]. split; [rewrite <- Hn; apply (i_nodup _ _ _ _ HI)|].
  split; [intros v; split; [rewrite <- Hn; apply (i_reach _ _ _ _ HI)|apply (sort_closed _ _ _ _ HI Hn)]|].
  assert (forall v, v ∈ order -> v <> entry -> exists u, edge succ u v /\ before order u v) as K.
  { intros v Hv Hne. apply elem_of_list_lookup in Hv as [i Hi]. rewrite <- Hn in Hi.
    destruct (i_pred _ _ _ _ HI i v Hi) as [->|(u & j & Hj & Hu & Huv)]; [contradiction|].
    exists u. split; [exact Huv|]. exists j, i. rewrite <- Hn. auto. }
  split; [|exact K].
  destruct (order !! 0) as [v|] eqn:E0.
  - f_equal. rewrite <- Hn in E0. destruct (i_pred _ _ _ _ HI 0 v E0) as [->|(u & j & Hj & _)]; [reflexivity|lia].
  - exfalso. pose proof (i_entry _ _ _ _ HI) as He. rewrite Hn in He. apply elem_of_list_lookup in He as [i Hi].
    apply lookup_ge_None in E0. apply lookup_lt_Some in Hi. lia.
Qed.

(** Hence a command all of whose inputs come from one single command runs after
    that command, in every graph. *)
Theorem run_after_unique_dependency (succ : nat -> list nat) (entry n fuel : nat) (order : list nat) (u v : nat) :
  finite_from succ entry n -> n <= fuel -> sort succ entry fuel = Some order ->
  v ∈ order -> v <> entry -> (forall w, edge succ w v -> w = u) -> before order u v.
Proof.
  intros Hfin Hf Hs Hv Hne Hu. destruct (run_each_reachable_once succ entry n fuel Hfin Hf) as (o & E & _ & _ & _ & K).
  rewrite Hs in E. injection E as <-. destruct (K v Hv Hne) as (w & Hw & Hb). now rewrite <- (Hu w Hw).
Qed.

(** If all edges lead from one level to the next, all dependencies are respected. *)
Theorem run_respects_dependencies_partial (succ : nat -> list nat) (level : nat -> nat) (entry fuel : nat) (order : list nat) :
  graded succ level -> sort succ entry fuel = Some order -> respects_dependencies succ order.
Proof.
  intros Hg Hs u v Hu Hv Huv. apply elem_of_list_lookup in Hu as [i Hi]. apply elem_of_list_lookup in Hv as [j Hj].
  destruct (decide (i < j)) as [Hlt|Hge]; [exists i, j; auto|]. exfalso. pose proof (Hg u v Huv) as Hl.
  destruct (decide (i = j)) as [->|Hne].
  - rewrite Hi in Hj. injection Hj as ->. lia.
  - pose proof (sort_graded succ entry level Hg fuel order Hs j i v u ltac:(lia) Hj Hi). lia.
Qed.

(** The C24 statement fails for acyclic graphs in general: with edges 0 -> 2,
    0 -> 1 and 1 -> 2 command 2 runs before command 1, on which it depends. *)
Definition skip_graph (u : nat) : list nat := match u with 0 => [2; 1] | 1 => [2] | _ => [] end.
Theorem run_respects_dependencies_refuted :
  acyclic skip_graph /\ finite_from skip_graph 0 3 /\
  exists order, sort skip_graph 0 3 = Some order /\ ~ respects_dependencies skip_graph order.
Proof.
  split; [|split].
  - exists (fun v => v). intros [|[|u]] v H; unfold edge in H; simpl in H;
      repeat (apply elem_of_cons in H as [->|H]; [lia|]); inversion H.
  - intros v Hv. apply rtc_inv_r in Hv as [<-|(u & _ & H)]; [lia|].
    destruct u as [|[|u]]; unfold edge in H; simpl in H; repeat (apply elem_of_cons in H as [->|H]; [lia|]); inversion H.
  - exists [0; 2; 1]. split; [reflexivity|]. intros H.
    destruct (H 1 2) as (i & j & Hij & Hi & Hj); [do 2 right; left|right; left|now left|].
    destruct i as [|[|[|i]]]; try discriminate. destruct j as [|[|[|j]]]; try discriminate; try lia.
Qed.
(** What users of jlc get.  When all input files need the same number of steps
    (only source files, or only object files) all commands run in order ... *)
Theorem jlc_runs_in_order_partial (cs : list compilation) (m : nat) (succ : nat -> list nat) :
  Forall (fun c => stages c = m) cs -> enumerates succ (generate cs).1 ->
  exists order, sort succ entry_node (next_node (generate cs).1) = Some order /\
    NoDup order /\ (forall v, v ∈ order <-> reachable succ entry_node v) /\ respects_dependencies succ order.
Proof.
  intros HF He. pose proof (generate_finite cs succ He) as Hfin.
  destruct (run_each_reachable_once succ entry_node _ _ Hfin (Nat.le_refl _)) as (order & Hs & Hnd & Hr & _).
  destruct (generate_graded m cs succ HF He) as [level Hg]. exists order.
  split; [exact Hs|]. split; [exact Hnd|]. split; [exact Hr|].
  exact (run_respects_dependencies_partial succ level _ _ order Hg Hs).
Qed.
(** ... with any number of C files, for instance. *)
Example jlc_runs_in_order_instance (n : nat) (b : bool) : Forall (fun c => stages c = 3) (replicate n (source_file b)).
Proof. induction n; simpl; constructor; auto. Qed.

(** ... but [jlc a.c b.o] runs the linker (node 5) before the compiler back end
    (node 4) that produces the linker's input. *)
Definition enumerate (es : list (nat * nat)) (u : nat) : list nat := map snd (filter (fun e => e.1 = u) es).
Theorem jlc_mixed_inputs_refuted :
  let g := (generate [source_file false; object_file]).1 in
  enumerates (enumerate (edges g)) g /\
  edge (enumerate (edges g)) 4 5 /\
  (generate [source_file false; object_file]).2 = Some 5 /\
  exists order, sort (enumerate (edges g)) entry_node (next_node g) = Some order /\ before order 5 4.
Proof.
  cbv zeta. split; [|split; [|split]].
  - intros u v. unfold enumerate. rewrite elem_of_list_fmap. split.
    + intros ([a b] & -> & H). apply elem_of_list_filter in H as [<- H]. exact H.
    + intros H. exists (u, v). split; [reflexivity|]. apply elem_of_list_filter. auto.
  - vm_compute. left.
  - reflexivity.
  - eexists. split; [reflexivity|]. vm_compute. exists 2, 5. split; [lia|auto].
Qed.
