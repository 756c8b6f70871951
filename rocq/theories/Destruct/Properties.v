(** From regions to control flow graphs: the theorems. *)
From stdpp Require Import base list gmap countable.
From Coq Require Import Lia.
From Verif.Construct Require Import Model Spec.
From Verif.Cfg Require Import Model Spec ProofsBase.
From Verif.Cfg Require Properties.
From Verif.LocalRegion Require Import Model Spec Facts Run.
From Verif.Unswitch Require Import Spec.
From Verif.Sinking Require Import Spec.
From Verif.Hoisting Require Import Spec.
From Verif.Hoisting Require Properties.
From Verif.Destruct Require Import Model Spec Proofs1 Proofs2 Proofs5 Proofs8 Proofs9.

(** C95: whenever the conversion of a well-formed region succeeds, the control flow graph computes what the region does: from all values of the arguments, the same results, and it ends exactly if the region has results *)
Theorem graph_implements opcode r params next g results : well r -> (forall v, v ∈ params -> v < next) -> create_graph opcode r params next = Some (g, results) -> @implements opcode r params g results.
Proof. apply create_graph_implements. Qed.
(** C95: so does the straightened graph, which there always is, in whatever order the blocks are visited *)
Theorem cfg_implements opcode order r params next g results : well r -> (forall v, v ∈ params -> v < next) -> create_cfg opcode order r params next = Some (g, results) -> @implements opcode r params g results.
Proof.
  intros Hw Hp H. unfold create_cfg in H. apply bind_Some in H as ([g0 rs] & H0 & H). destruct (create_cfg_ok opcode order r params next g0 rs Hw Hp H0) as (g1 & H1 & _ & _ & H2).
  unfold create_cfg in H1. rewrite H0 in H1. cbn [mbind option_bind] in H1. rewrite H in H1. by injection H1 as -> ->.
Qed.
(** C96: the graph is valid, and every basic block has a predecessor, before and after straightening: the assertion at the end of the conversion holds *)
Theorem graph_valid opcode r params next g results : well r -> (forall v, v ∈ params -> v < next) -> create_graph opcode r params next = Some (g, results) -> valid g /\ closed g.
Proof. apply create_graph_valid. Qed.
Theorem cfg_valid opcode order r params next g results : well r -> (forall v, v ∈ params -> v < next) -> create_cfg opcode order r params next = Some (g, results) -> valid g /\ closed g.
Proof.
  intros Hw Hp H. unfold create_cfg in H. apply bind_Some in H as ([g0 rs] & H0 & H). destruct (create_cfg_ok opcode order r params next g0 rs Hw Hp H0) as (g1 & H1 & H2 & H3 & _).
  unfold create_cfg in H1. rewrite H0 in H1. cbn [mbind option_bind] in H1. rewrite H in H1. by injection H1 as -> ->.
Qed.
(** C96: after straightening no block's only edge leads to a block without phis that has no other predecessor, if every block is visited *)
Theorem cfg_straight opcode order r params next g results : well r -> (forall v, v ∈ params -> v < next) -> (forall g n, is_Some (blocks g !! n) -> n ∈ order g) -> create_cfg opcode order r params next = Some (g, results) -> forall n s, ~ linear_pair g n s.
Proof.
  intros Hw Hp Ho H. unfold create_cfg in H. apply bind_Some in H as ([g0 rs] & H0 & H). apply bind_Some in H as (g1 & H1 & [= <- <-]). destruct (create_graph_valid _ _ _ _ _ _ Hw Hp H0) as [Hv _].
  apply (Properties.straighten_exhaustive (order g0) g0 g1 Hv); [apply Ho | done].
Qed.
(** C97: the conversion succeeds exactly for the regions whose nodes come after those whose outputs they use (the order of the traverser) and in which no match content argument has users. The claim, that it succeeds for all
    regions in that order, is wrong *)
Theorem convertible opcode order r params next : well r -> (forall v, v ∈ params -> v < next) -> length params = length (rargs r) -> is_Some (create_cfg opcode order r params next) <-> sorted r /\ content_free r.
Proof.
  intros Hw Hp Hl. rewrite <-(create_graph_iff opcode r params next Hw Hl). split.
  - intros [x H]. unfold create_cfg in H. apply bind_Some in H as (y & H & _). eauto.
  - intros [[g0 rs] H]. destruct (create_cfg_ok opcode order r params next g0 rs Hw Hp H) as (g & H1 & _). eauto.
Qed.
(** the subregions hand on the match content *)
Definition content_used : region := Region [0] [Node (KGamma [Region [0] [] [0]; Region [0] [] [0]]) [0] [1]] [1].
Lemma content_used_well : well content_used.
Proof.
  assert (H : well (Region [0] [] [0])). { constructor; [by apply Hoisting.Properties.wf_decide | by intros n ?%elem_of_nil | by intros n b ?%elem_of_nil]. }
  constructor; [by apply Hoisting.Properties.wf_decide | |].
  - intros n Hn. apply elem_of_list_singleton in Hn as ->. split; [|intros subs [= <-]; cbn; lia]. split; [cbn; lia|]. intros r Hr. assert (r = Region [0] [] [0]) as -> by (apply elem_of_cons in Hr as [->|Hr]; [done | by apply elem_of_list_singleton in Hr]). split; [by apply Hoisting.Properties.wf_decide | done].
  - intros n b Hn Hb. apply elem_of_list_singleton in Hn as ->. apply elem_of_cons in Hb as [->|Hb]; [done|]. by apply elem_of_list_singleton in Hb as ->.
Qed.
Theorem convertible_refuted : exists r, well r /\ sorted r /\ (exists vs ws, LocalRegion.Spec.runs (fun _ _ => None) (fun v => v) r vs ws) /\ forall opcode order params next, create_cfg opcode order r params next = None.
Proof.
  exists content_used. split; [apply content_used_well|]. split; [|split].
  - constructor.
    + intros l1 n l2 x E Hx. destruct l1 as [|m l1]; [|by destruct l1]. injection E as <- _. by left.
    + intros n b Hn Hb. apply elem_of_list_singleton in Hn as ->. assert (b = Region [0] [] [0]) as -> by (apply elem_of_cons in Hb as [->|Hb]; [done | by apply elem_of_list_singleton in Hb]). constructor; [by intros [|? ?] m l2 x Hx | by intros m b' ?%elem_of_nil].
  - exists [VCtl 0], [VCtl 0]. apply (run_sound _ _ 3); by vm_compute.
  - intros opcode order [|p params] next; [done|]. by destruct params.
Qed.

(** The semantics of the graph's instructions that the claims speak of: there is a numbering of the operations for which it exists *)
Global Instance op_eq_dec : EqDecision op.
Proof. solve_decision. Defined.
Definition op_code (o : op) : nat * (Z * Z) * list (Z * nat) :=
  match o with OCtl k => (0, (Z.of_nat k, 0%Z), []) | OInt w v => (1, (w, v), []) | OMatch w m d => (2, (w, Z.of_nat d), m) | OSelect => (3, (0%Z, 0%Z), []) | OEq w => (4, (w, 0%Z), []) | OCtlToInt => (5, (0%Z, 0%Z), []) | OOther id => (6, (Z.of_nat id, 0%Z), []) end.
Definition op_decode (p : nat * (Z * Z) * list (Z * nat)) : option op :=
  match p with
  | (0, (k, _), _) => Some (OCtl (Z.to_nat k)) | (1, (w, v), _) => Some (OInt w v) | (2, (w, d), m) => Some (OMatch w m (Z.to_nat d)) | (3, _, _) => Some OSelect | (4, (w, _), _) => Some (OEq w) | (5, _, _) => Some OCtlToInt
  | (6, (i, _), _) => Some (OOther (Z.to_nat i)) | _ => None
  end.
Lemma op_decode_code o : op_decode (op_code o) = Some o.
Proof. destruct o; cbn; by rewrite ?Nat2Z.id. Qed.
Global Instance op_countable : Countable op := inj_countable op_code op_decode op_decode_code.
Theorem numbering : forall other, exists sem : nat -> list val -> option (list val), forall o vs, sem (encode_nat o) vs = op_sem other o vs.
Proof. intros other. exists (fun k vs => match decode_nat k with Some o => op_sem other o vs | None => None end). intros o vs. by rewrite decode_encode_nat. Qed.

(** a loop with a gamma node inside: every condition is met, and the graph is made *)
Definition branches : list region := [Region [0; 1] [] [1]; Region [0; 1] [Node (KSimple (OOther 0)) [1] [2]] [2]].
Definition looped : region := Region [0; 1] [Node (KSimple (OOther 1)) [0; 1] [2; 3]; Node (KGamma branches) [2; 0] [4]] [3; 4; 1].
Definition whole : region := Region [0; 1] [Node (KTheta looped) [0; 1] [2; 3]] [2; 3].
Lemma branches_in b : b ∈ branches -> b = Region [0; 1] [] [1] \/ b = Region [0; 1] [Node (KSimple (OOther 0)) [1] [2]] [2].
Proof. intros [->|Hb]%elem_of_cons; [by left|]. apply elem_of_list_singleton in Hb. by right. Qed.
Lemma looped_in n : n ∈ rnodes looped -> n = Node (KSimple (OOther 1)) [0; 1] [2; 3] \/ n = Node (KGamma branches) [2; 0] [4].
Proof. intros [->|Hn]%elem_of_cons; [by left|]. apply elem_of_list_singleton in Hn. by right. Qed.
Lemma plain_branch b : b ∈ branches -> well b /\ sorted b /\ content_free b.
Proof.
  intros [->| ->]%branches_in.
  - split; [constructor; [by apply Hoisting.Properties.wf_decide | by intros n ?%elem_of_nil | by intros n b ?%elem_of_nil]|]. split; constructor; [by intros [|? ?] ? ? ? | by intros ? ? ?%elem_of_nil | by intros ? ? ? ? ?%elem_of_nil | by intros ? ? ?%elem_of_nil].
  - split; [constructor; [by apply Hoisting.Properties.wf_decide | intros n ->%elem_of_list_singleton; done | intros n b ->%elem_of_list_singleton ?%elem_of_nil; done]|]. split; constructor.
    + intros l1 n l2 x E Hx. destruct l1 as [|m l1]; [|by destruct l1]. injection E as <- _. apply elem_of_list_singleton in Hx as ->. left. right. by left.
    + intros n b ->%elem_of_list_singleton ?%elem_of_nil. done.
    + by intros n subs s c ->%elem_of_list_singleton.
    + intros n b ->%elem_of_list_singleton ?%elem_of_nil. done.
Qed.
Lemma looped_fine : well looped /\ sorted looped /\ content_free looped.
Proof.
  split; [|split]; constructor.
  - by apply Hoisting.Properties.wf_decide.
  - intros n [->| ->]%looped_in; [done|]. split; [|intros subs [= <-]; cbn; lia]. split; [cbn; lia|]. intros r [->| ->]%branches_in; (split; [by apply Hoisting.Properties.wf_decide | done]).
  - intros n b [->| ->]%looped_in Hb; [by apply elem_of_nil in Hb|]. by apply plain_branch.
  - intros l1 n l2 x E Hx. destruct l1 as [|m [|m' l1]]; [| |by destruct l1]; injection E.
    + intros _ <-. cbn in Hx. left. apply elem_of_cons in Hx as [->|Hx]; [by left|]. apply elem_of_list_singleton in Hx as ->. right. by left.
    + intros _ <- <-. cbn in Hx. apply elem_of_cons in Hx as [->|Hx]; [right; by left|]. apply elem_of_list_singleton in Hx as ->. left. by left.
  - intros n b [->| ->]%looped_in Hb; [by apply elem_of_nil in Hb|]. by apply plain_branch.
  - intros n subs s c [->| ->]%looped_in; [done|]. intros [= <-] [->| ->]%branches_in [= <-]; intros [(n & Hn & Hx)|Hx]; [by apply elem_of_nil in Hn | by apply elem_of_list_singleton in Hx | apply elem_of_list_singleton in Hn as ->; by apply elem_of_list_singleton in Hx | by apply elem_of_list_singleton in Hx].
  - intros n b [->| ->]%looped_in Hb; [by apply elem_of_nil in Hb|]. by apply plain_branch.
Qed.
Example example_convertible : well whole /\ sorted whole /\ content_free whole /\ forall opcode order, is_Some (create_cfg opcode order whole [0; 1] 2).
Proof.
  destruct looped_fine as (L1 & L2 & L3). assert (Hw : well whole).
  { constructor; [by apply Hoisting.Properties.wf_decide | |]; [intros n ->%elem_of_list_singleton; done | intros n b ->%elem_of_list_singleton ->%elem_of_list_singleton; done]. }
  assert (Hs : sorted whole).
  { constructor; [|intros n b ->%elem_of_list_singleton ->%elem_of_list_singleton; done]. intros l1 n l2 x E Hx. destruct l1 as [|m l1]; [|by destruct l1]. injection E as <- _. by left. }
  assert (Hc : content_free whole) by (constructor; [by intros n subs s c ->%elem_of_list_singleton | intros n b ->%elem_of_list_singleton ->%elem_of_list_singleton; done]).
  split; [done|]. split; [done|]. split; [done|]. intros opcode order. apply convertible; [done | | done | done]. intros v Hv. apply elem_of_cons in Hv as [->|Hv]; [lia|]. apply elem_of_list_singleton in Hv as ->. lia.
Qed.
(** the phis: of the loop, where loop variable 1 needs none, and of the gamma node *)
Example example_graph : exists g, create_graph (fun o => match o with OOther k => k | _ => 9 end) whole [0; 1] 2 = Some (g, [6; 1]) /\
  blocks g !! 4 = Some (Block [Phi 2 [(3, 0); (14, 6)]] [5]) /\ blocks g !! 5 = Some (Block [Tac (Op 1 [2; 1] [3; 4])] [6]) /\ blocks g !! 6 = Some (Block [Tac (BranchOn 3)] [8; 11]) /\ blocks g !! 7 = Some (Block [Phi 6 [(10, 2); (13, 5)]] [14]) /\
  blocks g !! 14 = Some (Block [Tac (BranchOn 4)] [15; 4]).
Proof. eexists. split; [vm_compute; reflexivity|]. vm_compute. done. Qed.
