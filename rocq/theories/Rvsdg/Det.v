(** An output has at most one value. *)
From stdpp Require Import base list list_numbers fin_sets gmap.
From Verif.Rvsdg Require Import Model Spec Sem Wf WfFacts.

Section Det.
  Context {V : Type} (ctl : V -> option nat) (content : V -> V) (sem : nat -> list V -> option (list V)) (addr imp : nat -> V).
  Local Notation eqn := (eqn ctl content sem addr imp).
  Local Notation ev := (ev ctl content sem addr imp).
  Context (t : region) (Hnd : NoDup (defs t).*1).
  Local Notation det := (fun e o v => ev t e o v /\ forall v', ev t e o v' -> v = v').

  Lemma det_list e l vs vs' : Forall2 (det e) l vs -> Forall2 (ev t e) l vs' -> vs = vs'.
  Proof using. clear. intros H. revert vs'. induction H as [|o v l vs [_ Hv] _ IH]; intros vs' H'; inversion H'; subst; [done|]. f_equal; eauto. Qed.
  Lemma det_loop pred post lvs vs v v' : loop ctl det pred post lvs vs v -> loop ctl (ev t) pred post lvs vs v' -> v = v'.
  Proof using.
    clear. intros H. revert v'. induction H as [vs pv v [_ H1] H2 [_ H3] | vs pv ws v [_ H1] H2 H3 H4 IH]; intros v' H'; destruct H' as [vs pv' v' G1 G2 G3 | vs pv' ws' v' G1 G2 G3 G4].
    - by apply H3.
    - apply H1 in G1 as ->. congruence.
    - apply H1 in G1 as ->. congruence.
    - apply IH. by rewrite (det_list _ _ _ _ H3 G3).
  Qed.
  Lemma ev_det e o v v' : ev t e o v -> ev t e o v' -> v = v'.
  Proof using Hnd.
    intros H. revert v'. revert e o v H. apply (ev_ind ctl content sem addr imp t (fun e o v => forall v', ev t e o v' -> v = v')).
    intros e o v (w & Hw & He) v' (w' & Hw' & He')%ev_unfold. assert (w' = w) as -> by (eapply defs_fun; eauto).
    destruct w as [id l op k ins | p brs | x | pred post inp lvs | out inp | id a r | | id r | x | id]; cbn [Spec.eqn] in He, He'; try congruence.
    - destruct He as (vs & ws & H1 & H2 & H3), He' as (vs' & ws' & H1' & H2' & H3'). rewrite <-(det_list _ _ _ _ H1 H1') in H2'. congruence.
    - destruct He as (pv & b & x & cc & es & vs & [_ H1] & H2 & H3 & H4 & [_ H5]), He' as (pv' & b' & x' & cc' & es' & vs' & G1 & G2 & G3 & G4 & G5).
      apply H1 in G1 as <-. assert (b' = b) as -> by congruence. rewrite H3 in G3. injection G3 as <- <- <-. rewrite <-(det_list _ _ _ _ H4 G4) in G5. by apply H5.
    - destruct He as (vs & H1 & H2), He' as (vs' & G1 & G2). rewrite <-(det_list _ _ _ _ H1 G1) in G2. by eapply det_loop.
    - destruct He as [_ He]. by apply He.
  Qed.
End Det.
