(** A concrete chain. *)
From stdpp Require Import base list.
From Verif.LoadChain Require Import Model Spec Proofs.

(** Two loads, a store, a load, and loops with a load and with a store. *)
Definition s0 : state :=
  Load 8 (Loop 7 (Modify 70 Start) (Load 6 (Loop 5 (Load 50 Start) (Load 4 (Modify 3 (Load 2 (Load 1 Start))))))).

Example separate0 : separate (chain s0) = [
  Single (Link (NLoad 8) Reference);
  Single (Link (NLoop 7 (Modify 70 Start)) Modification);
  Parallel [Link (NLoad 6) Reference; Link (NLoop 5 (Load 50 Start)) Reference; Link (NLoad 4) Reference];
  Single (Link (NModify 3) Modification);
  Parallel [Link (NLoad 2) Reference; Link (NLoad 1) Reference]].
Proof. reflexivity. Qed.
Example no_calls0 : loops_without_calls s0.
Proof. repeat split. Qed.
Example exec0 : exec_chain (fun n m => n + m) (fun _ _ => 2) (chain s0) 0 =
  ([(NLoad 8, 143); (NLoop 7 (Modify 70 Start), 3); (NLoad 6, 3); (NLoop 5 (Load 50 Start), 3); (NLoad 4, 3); (NModify 3, 0); (NLoad 2, 0); (NLoad 1, 0)], 143).
Proof. reflexivity. Qed.
(** A call outside of loops is no problem. *)
Example no_calls1 : loops_without_calls (Load 2 (Load 1 (ExitSplit (Call 0 (Merge [Load 3 Start]))))).
Proof. exact I. Qed.
