(** Dead node elimination: the theorems. *)
From stdpp Require Import base list list_numbers fin_sets gmap relations.
From Verif.Rvsdg Require Import Model Spec Sem Wf WfFacts ListFacts Det.
From Verif.Dne Require Import Model Spec ProofsMark Rel ProofsList ProofsNode ProofsIds ProofsShrink ProofsAlive ProofsMain ProofsKeep.

(** C34: on every well-formed module the pass ends, no assertion fails, and the module stays well-formed *)
Theorem dne_total t : wf t -> exists t', dne t = Some t' /\ wf t'.
Proof. intros Hw. destruct (dne_main t Hw) as (t' & c & H & _ & _ & Hw' & _). eauto. Qed.

Section Values.
  Context {V : Type} (ctl : V -> option nat) (content : V -> V) (sem : nat -> list V -> option (list V)) (addr imp : nat -> V).
  Local Notation ev := (ev ctl content sem addr imp).

  (** C35: the exported values are the same *)
  Theorem dne_results t t' : wf t -> loads_pass_states sem t -> dne t = Some t' ->
    length (rres t') = length (rres t) /\
    forall i o o' v, rres t !! i = Some o -> rres t' !! i = Some o' -> ev t emp o v ->
      ev t' emp o' v /\ forall v', ev t' emp o' v' -> v' = v.
  Proof using.
    intros Hw Hp Hd. destruct (dne_main t Hw) as (t2 & c & H & Hcl & _ & Hw' & Hres & Hsim & _). assert (t2 = t') as -> by congruence.
    split; [symmetry; by eapply Forall2_length|]. intros i o o' v Ho Ho' Hev. destruct Hw as (Hw1 & Hw2 & Hw3), Hw' as (Hw1' & Hw2' & _).
    assert (Hev' : ev t' emp o' v).
    { eapply (ev_preserved t c ctl content sem addr imp t'); try done.
      - intros; by eapply wf_refs.
      - intros; by eapply wf_refs.
      - by eapply Forall2_lookup_lr.
      - apply wf_res; [done|]. by eapply elem_of_list_lookup_2. }
    split; [done|]. intros v' H'. by eapply ev_det.
  Qed.
  (** C35: the functions and global variables of the new module are those of the old one, and compute the same, for all arguments *)
  Theorem dne_functions t t' : wf t -> loads_pass_states sem t -> dne t = Some t' ->
    forall o id a r', ((o, VLambda id a r') ∈ defs t' \/ (o, VDelta id r') ∈ defs t' /\ a = []) ->
      exists r, ((o, VLambda id a r) ∈ defs t \/ (o, VDelta id r) ∈ defs t /\ a = []) /\ length r' = length r /\
        forall e i x x' v, r !! i = Some x -> r' !! i = Some x' -> ev t e x v -> ev t' e x' v.
  Proof using.
    intros Hw Hp Hd o id a r' Ho. destruct (dne_main t Hw) as (t2 & c & H & Hcl & _ & Hw' & Hres & Hsim & _). assert (t2 = t') as -> by congruence.
    destruct Hw as (Hw1 & Hw2 & Hw3), Hw' as (Hw1' & Hw2' & _).
    assert (Hall : forall w' r, (o, w') ∈ defs t' -> (forall x, x ∈ r' -> x ∈ refs w') -> Forall2 (rsl t c) r r' -> length r' = length r /\
        forall e i x x' v, r !! i = Some x -> r' !! i = Some x' -> ev t e x v -> ev t' e x' v).
    { intros w' r Hw' Hr Hf. split; [symmetry; by eapply Forall2_length|]. intros e i x x' v Hx Hx' Hev.
      eapply (ev_preserved t c ctl content sem addr imp t'); try done.
      - intros; by eapply wf_refs.
      - intros; by eapply wf_refs.
      - by eapply Forall2_lookup_lr.
      - eapply wf_refs; [done | exact Hw' |]. apply Hr. by eapply elem_of_list_lookup_2. }
    destruct Ho as [Ho|[Ho ->]]; destruct (Hsim _ _ Ho) as (w & Hin & Hv); inversion Hv; subst.
    - exists r. split; [left; done|]. eapply Hall; [exact Ho | done | done].
    - exists r. split; [right; done|]. eapply Hall; [exact Ho | done | done].
  Qed.
End Values.

(** C36: nothing that is needed is removed, except the memory states of loads whose value is not needed *)
Theorem dne_keeps t t' : wf t -> dne t = Some t' ->
  forall o w, (o, w) ∈ defs t -> needed t o -> (forall id op k ins, w <> VSimple id true op (S k) ins) -> exists w', (o, w') ∈ defs t'.
Proof.
  intros Hw Hd o w Ho Hn Hk. destruct (dne_main t Hw) as (t2 & c & H & Hcl & _ & Hw' & Hres & Hsim & _). assert (t2 = t') as -> by congruence.
  destruct Hw as (Hw1 & Hw2 & Hw3), Hw' as (Hw1' & Hw2' & _). apply elem_of_fst. eapply (needed_kept t c t'); eauto.
  split; [eapply (needed_live t c t'); eauto|]. split; [constructor|]. intros (id & op & k & ins & H2 & _). apply (Hk id op k ins). eapply (defs_fun t o); eauto.
Qed.
(** C36: every node that is left has an output that is needed, and so has every import *)
Theorem dne_removes t t' : wf t -> dne t = Some t' ->
  (forall n, n ∈ nodes_of t' -> exists o, o ∈ nouts n /\ needed t o) /\ (forall a, a ∈ rargs t' -> needed t a).
Proof.
  intros Hw Hd. destruct (dne_main t Hw) as (t2 & c & H & Hcl & Hs & Hw' & Hres & Hsim & Hu & Ha). assert (t2 = t') as -> by congruence.
  split; [done|]. intros a [_ H2]%Ha. by apply Hs.
Qed.
(** C36: nothing new: the outputs and nodes of the new module are some of those of the old one, in the same order *)
Theorem dne_only_removes t t' : wf t -> dne t = Some t' ->
  (defs t').*1 `sublist_of` (defs t).*1 /\ map nid (nodes_of t') `sublist_of` map nid (nodes_of t).
Proof.
  intros Hw Hd. unfold dne in Hd. apply bind_Some in Hd as (c & _ & Hd). unfold sweep_rvsdg in Hd. apply bind_Some in Hd as (t1 & H1 & H2).
  apply remove_arguments_eq in H2. pose proof (sub_region_trans _ _ _ (sub_args _ _ _ _ H2) (proj2 (sweep_sub c) _ _ _ H1)) as [Hk Hi].
  rewrite !defs_keys_eq. rewrite <-!(proj2 ids_nodes). done.
Qed.
