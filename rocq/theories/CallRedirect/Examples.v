(** A concrete call. *)
From stdpp Require Import base list.
From Coq Require Import Lia.
From Verif.CallRedirect Require Import Model Spec Proofs.

(** A function that returns its second argument, hands memory node 3 through
    and changes the external memory (node 0); the caller has edges for nodes 3,
    4 and the external one, and node 4 is part of the callee's external memory. *)
Definition l0 : lambda := Lambda [32; 32; 1; 2] [Arg 1; Arg 2; Inner 1] (Some [0; 3]) (Some [(3, SplitOut 3); (0, Inner 0)]).
Definition c0 : call := Call [10; 11; 12; 13] [(32, true); (1, true); (2, true)] (Some [0; 3; 4]) (Some [(0, 20); (3, 21); (4, 22)]).
Definition otype0 (o : nat) : ty := if o =? 12 then 1 else if o =? 13 then 2 else 32.

Example redirect0 : redirect_call otype0 0 l0 c0 = Done [(CallOut 0, 11); (CallOut 1, 12); (ExitOut 3, 21)].
Proof. reflexivity. Qed.
Example typed0 : call_typed otype0 l0 c0.
Proof.
  split; [reflexivity|]. split; [reflexivity|]. intros n i t u Hn Hi Ho.
  destruct n as [|[|[|n]]]; cbn in Hn; try discriminate Hn; injection Hn as <-; cbn in Ho; injection Ho as <- <-; reflexivity.
Qed.
Example routed0 : routed 0 l0.
Proof. intros entry exit n H _ _. injection H as <-. right. apply elem_of_list_here. Qed.

(** Memory before: every node contains its number; the function adds 100 to
    the external memory. *)
Definition before (n : id) : nat := n.
Definition after (n : id) : nat := if n =? 3 then 3 else n + 100.
Definition env0 (o : nat) : value nat nat := match o with 10 | 11 | 12 => Data o | _ => Memory before end.
Definition outs0 (d : diverted) : value nat nat :=
  match d with CallOut 0 => Data 11 | CallOut 1 => Data 12 | _ => Memory after end.

Example calls0 : calls 0 l0 c0 env0 outs0.
Proof.
  split.
  - exists (fun i => env0 (10 + i)), (fun e => match e with Arg i => env0 (10 + i) | SplitOut _ => Memory before | Inner _ => Memory after end).
    split; [|split].
    + split; cbn.
      * reflexivity.
      * intros entry e n _ _ _ m Hm. injection Hm as <-. reflexivity.
      * intros exit e o n r H He Hrep Hl c Hc. injection H as <-. injection Hl as <-. cbn.
        apply elem_of_cons in He. destruct He as [He|He].
        { injection He as -> ->. destruct Hrep as [->|[H _]]; [|discriminate H]. cbn in Hc. exact Hc. }
        { apply elem_of_list_singleton in He. injection He as -> ->. exact Hc. }
      * intros exit n r H Hn H0 _ m _. injection H as <-. exfalso. apply H0. cbn. apply elem_of_list_further, elem_of_list_here.
    + intros i o Hi. destruct i as [|[|[|[|i]]]]; cbn in Hi; try discriminate Hi; injection Hi as <-; reflexivity.
    + intros n r Hn. destruct n as [|[|[|n]]]; cbn in Hn; try discriminate Hn; injection Hn as <-; reflexivity.
  - intros merge e o n H He _. exists 13, before. split; [reflexivity|]. split; [reflexivity|]. injection H as <-.
    apply elem_of_cons in He. destruct He as [He|He]; [injection He as -> ->; reflexivity|].
    apply elem_of_cons in He. destruct He as [He|He]; [injection He as -> ->; reflexivity|].
    apply elem_of_list_singleton in He. injection He as -> ->. reflexivity.
  - intros ms e n H He _ x Hx. exact Hx.
Qed.
(** All hypotheses of the theorem are met. *)
Example preserves0 : same 0 c0 env0 outs0 (ExitOut 3) 21.
Proof.
  eapply (call_redirect_preserves 0 otype0 l0 c0); [exact redirect0|reflexivity|discriminate|exact routed0|exact calls0|].
  apply elem_of_list_further, elem_of_list_further, elem_of_list_here.
Qed.
(** Node 4 is changed by the call and is not redirected. *)
Example changed0 : ~ same 0 c0 env0 outs0 (ExitOut 4) 22.
Proof. intros H. destruct (H [0; 3; 4] 4 eq_refl (or_introl eq_refl)) as (x & H1 & H2). cbn in H1, H2. unfold before, after in *. cbn in H2. lia. Qed.
