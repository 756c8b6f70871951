(** When a module may replace another: same interface, and everything it computes keeps its value. *)
From stdpp Require Import base list list_numbers fin_sets gmap.
From Verif.Rvsdg Require Import Model Spec Sem Wf.

Section Refine.
  Context {V : Type} (ctl : V -> option nat) (content : V -> V) (sem : nat -> list V -> option (list V)) (addr imp : nat -> V).
  Local Notation ev := (ev ctl content sem addr imp).
  (** the outputs x' of t' have the values of the outputs x of t, for the same arguments *)
  Definition same_values (t t' : region) (l l' : list oid) : Prop := Forall2 (fun x x' => forall e v, ev t e x v -> ev t' e x' v) l l'.
  (** the results of the module; the functions and global variables that are left; every output that is left *)
  Record refines (t t' : region) : Prop := Refines {
    ref_res : same_values t t' (rres t) (rres t');
    ref_lambda : forall o id a r', (o, VLambda id a r') ∈ defs t' -> exists r, (o, VLambda id a r) ∈ defs t /\ same_values t t' r r';
    ref_delta : forall o id r', (o, VDelta id r') ∈ defs t' -> exists r, (o, VDelta id r) ∈ defs t /\ same_values t t' r r';
    ref_outs : forall e o v, o ∈ (defs t').*1 -> ev t e o v -> ev t' e o v }.

  Lemma same_values_trans t t' t'' l l' l'' : same_values t t' l l' -> same_values t' t'' l' l'' -> same_values t t'' l l''.
  Proof using.
    unfold same_values. intros H1. revert l''. induction H1 as [|x x' l l' Hx H1 IH]; intros l'' H2; inversion H2; subst; constructor; auto.
  Qed.
  Lemma same_values_refl t l : same_values t t l l.
  Proof using. induction l; constructor; auto. Qed.
  Lemma refines_refl t : refines t t.
  Proof using. split; eauto using same_values_refl. Qed.
  Lemma refines_trans t t' t'' : (forall o, o ∈ (defs t'').*1 -> o ∈ (defs t').*1) -> refines t t' -> refines t' t'' -> refines t t''.
  Proof using.
    intros Hk [H1 H2 H3 H4] [G1 G2 G3 G4]. split.
    - by eapply same_values_trans.
    - intros o id a r'' Ho. destruct (G2 _ _ _ _ Ho) as (r' & Ho' & Hr'). destruct (H2 _ _ _ _ Ho') as (r & ? & ?). exists r. split; [done | by eapply same_values_trans].
    - intros o id r'' Ho. destruct (G3 _ _ _ Ho) as (r' & Ho' & Hr'). destruct (H3 _ _ _ Ho') as (r & ? & ?). exists r. split; [done | by eapply same_values_trans].
    - intros e o v Ho Hev. apply G4; [done|]. apply H4; [auto | done].
  Qed.
End Refine.
