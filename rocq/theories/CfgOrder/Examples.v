From stdpp Require Import base list fin_sets gmap fin_maps.
From Verif.Cfg Require Import Model.
From Verif.Domtree Require Import Model.
From Verif.CfgOrder Require Import Model Spec Proofs1 Proofs2.

(* block 2 branches to 3 and 4, 3 goes to 5, 4 to 3 and back to 2, 5 to the
   exit; block 6 is not reachable *)
Definition loop_cfg : cfg :=
  Cfg {[ 2 := Block [] [3; 4]; 3 := Block [] [5]; 4 := Block [] [3; 2]; 5 := Block [] [1]; 6 := Block [] [3] ]} 2.

Example orders : edges_valid loop_cfg /\ breadth_first loop_cfg = Some [0; 2; 3; 4; 5; 1] /\
  postorder loop_cfg = Some [1; 5; 3; 4; 2; 0] /\ reverse_postorder loop_cfg = Some [0; 2; 4; 3; 5; 1] /\
  reaches loop_cfg 2 4 /\ before [0; 2; 4; 3; 5; 1] 4 3.
Proof.
  split.
  - intros n m H. unfold sinks in H. destruct (decide (n = entry)); [apply elem_of_list_singleton in H as ->; right; eexists; reflexivity|].
    destruct (blocks loop_cfg !! n) as [b|] eqn:E; [|apply elem_of_nil in H; destruct H].
    apply elem_of_map_to_list in E. vm_compute in E.
    repeat (apply elem_of_cons in E as [E|E]; [injection E as -> ->;
      repeat (apply elem_of_cons in H as [->|H]; [first [left; reflexivity|right; eexists; reflexivity]|]); apply elem_of_nil in H; destruct H|]).
    apply elem_of_nil in E. destruct E.
  - split; [vm_compute; reflexivity|]. split; [vm_compute; reflexivity|]. split; [vm_compute; reflexivity|]. split.
    + exists 1. apply path_one. right. left.
    + exists 2, 3. split; [repeat constructor|split; reflexivity].
Qed.
