(** A concrete region. *)
From stdpp Require Import base list.
From Coq Require Import Lia.
From Verif.IoBarrier Require Import Model Spec Proofs.

(** x = *p; g(x) (which does not return); y = *p behind a barrier. *)
Definition g0 : graph := [
  Load (Arg 0) 4 [Arg 2];
  OtherNode [Out 0 0; Arg 1];
  Barrier (Arg 0) (Out 1 0);
  Load (Out 2 0) 4 [Arg 2];
  Load (Out 2 0) 8 [Arg 2]].
Definition w0 : world := World (fun _ => 4) (fun n => n =? 1).

(** The load of 4 bytes loses its barrier, the load of 8 bytes keeps it. *)
Example eliminate0 : eliminate g0 = [
  Load (Arg 0) 4 [Arg 2];
  OtherNode [Out 0 0; Arg 1];
  Barrier (Arg 0) (Out 1 0);
  Load (Arg 0) 4 [Arg 2];
  Load (Out 2 0) 8 [Arg 2]].
Proof. reflexivity. Qed.

Lemma uses0 n m : uses g0 n m -> (n = 1 /\ m = 0) \/ (n = 2 /\ m = 1) \/ (n = 3 /\ m = 2) \/ (n = 4 /\ m = 2).
Proof.
  intros (x & k & Hx & Hk). destruct n as [|[|[|[|[|n]]]]]; cbn in Hx; try discriminate Hx; injection Hx as <-; cbn in Hk;
    repeat (apply elem_of_cons in Hk; destruct Hk as [Hk|Hk]; [try discriminate Hk; injection Hk as -> ->; tauto|]); inversion Hk.
Qed.
Lemma uses0' n m : uses (eliminate g0) n m -> (n = 1 /\ m = 0) \/ (n = 2 /\ m = 1) \/ (n = 4 /\ m = 2).
Proof.
  intros (x & k & Hx & Hk). destruct n as [|[|[|[|[|n]]]]]; cbn in Hx; try discriminate Hx; injection Hx as <-; cbn in Hk;
    repeat (apply elem_of_cons in Hk; destruct Hk as [Hk|Hk]; [try discriminate Hk; injection Hk as -> ->; tauto|]); inversion Hk.
Qed.

Example safe0 : safe g0 w0.
Proof.
  intros n ns a size ss Hex Hn. destruct n as [|[|[|[|[|n]]]]]; cbn in Hn; try discriminate Hn; injection Hn as <- <- <-; cbn; try lia.
  exfalso. apply (not_executed _ _ _ 1 _ Hex); [|reflexivity]. apply (depends_trans _ 4 2 1); [|apply depends_direct].
  - exists (Load (Out 2 0) 8 [Arg 2]), 0. split; [reflexivity|apply elem_of_list_here].
  - exists (Barrier (Arg 0) (Out 1 0)), 0. split; [reflexivity|apply elem_of_list_further, elem_of_list_here].
Qed.

(** All hypotheses of the theorem are met. *)
Example still_safe0 : safe (eliminate g0) w0.
Proof.
  apply barrier_elimination_safe_partial.
  - intros n m H. destruct (uses0 _ _ H) as [?|[?|[?|?]]]; lia.
  - intros n v io k _. reflexivity.
  - exact safe0.
  - intros n a size m (b & io & Hb) (c & ss & Hn & Hc) Hd.
    assert (a = Arg 0) as ->. { destruct b as [|[|[|[|[|b]]]]]; cbn in Hb; try discriminate Hb. injection Hb as -> _. reflexivity. }
    assert (n = 0) as ->.
    { destruct n as [|[|[|[|[|n]]]]]; cbn in Hn; try discriminate Hn; [reflexivity| |]; injection Hn as <- <- <-;
        (destruct Hc as [[Hc _]|(q & k & i & Hq & Hc)]; [discriminate Hc|]); injection Hq as <- <-; cbn in Hc; discriminate Hc. }
    exfalso. inversion Hd as [? ? H|? ? ? H H']; subst; destruct (uses0 _ _ H) as [?|[?|[?|?]]]; lia.
  - intros n m _ _ Hd Hm.
    assert (m = 3) as ->.
    { destruct m as [|[|[|[|[|m]]]]]; try reflexivity; exfalso; apply Hm; reflexivity. }
    clear Hm. remember 3 as three eqn:E. induction Hd as [p q H|p q r H H' IH]; subst; [|exact (IH eq_refl)].
    destruct (uses0' _ _ H) as [?|[?|?]]; lia.
Qed.
