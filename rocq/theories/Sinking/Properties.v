(** Node sinking keeps what a region computes, and leaves no node above a gamma node that only one alternative needs. *)
From stdpp Require Import base list gmap.
From Coq Require Import ZArith Lia.
From Verif.LocalRegion Require Import Model Spec Facts.
From Verif.Unswitch Require Import Model Spec.
From Verif.Sinking Require Import Model Spec Proofs1 Proofs2 Proofs3.
Open Scope nat_scope.

Section Properties.
  Context (other : nat -> list val -> option (list val)) (content : val -> val).
  (** C91: the region computes the same as before *)
  Theorem sinking_preserves fuel r : good r -> same other content r (sink_nodes fuel r) /\ good (sink_nodes fuel r) /\ rargs (sink_nodes fuel r) = rargs r /\ rres (sink_nodes fuel r) = rres r.
  Proof. intros Hg. destruct (sink_nodes_ok other content fuel r Hg) as (H1 & H2 & H3 & H4 & _). done. Qed.
  (** C91: one gamma node *)
  Theorem sinking_gamma_preserves r g : good r -> same other content r (pull_gamma r g).1 /\ good (pull_gamma r g).1.
  Proof. intros Hg. destruct (pull_gamma_ok other content (fun _ => True) r g Hg) as [(H1 & H2 & _) _]. done. Qed.
End Properties.
(** C92: when the pass is done, no node is there that only one alternative of a gamma node needs; with recursion as deep as the extent of the region it is done *)
Theorem sinking_complete fuel r : good r -> extent r <= fuel -> sunk (sink_nodes fuel r).
Proof. apply (sink_nodes_sunk (fun _ _ => None) (fun v => v)). Qed.
Theorem sinking_terminates fuel r : good r -> extent r <= fuel -> sink_nodes fuel r = sink_nodes (extent r) r.
Proof. intros Hg He. by apply (sink_nodes_fuel (fun _ _ => None) (fun v => v)). Qed.

Ltac by_computation := solve [refine (bool_decide_unpack _ _); vm_compute; exact I].
Lemma all_in (l k : list nat) : bool_decide (Forall (fun x => x ∈ k) l) = true -> forall x, x ∈ l -> x ∈ k.
Proof. intros H%bool_decide_eq_true x Hx. rewrite Forall_forall in H. auto. Qed.
Lemma rank_in (l k : list nat) : forallb (fun x => forallb (fun y => x <? y) k) l = true -> forall x y, x ∈ l -> y ∈ k -> x < y.
Proof. intros H x y Hx%elem_of_list_In Hy%elem_of_list_In. rewrite forallb_forall in H. specialize (H x Hx). rewrite forallb_forall in H. specialize (H y Hy). by apply Nat.ltb_lt. Qed.
(** a sum and a product; one alternative computes something from the sum, the other one takes the product as well *)
Definition alt0 : region := Region [0; 1; 2] [Node (KSimple (OOther 7)) [1; 2] [3]] [3].
Definition alt1 : region := Region [0; 1; 2] [] [2].
Definition branch : node := Node (KGamma [alt0; alt1]) [0; 3; 4] [5].
Definition example : region := Region [0; 1; 2] [Node (KSimple (OOther 1)) [1; 2] [3]; Node (KSimple (OOther 2)) [1; 2] [4]; branch] [5].
Definition alt0' : region := Region [0; 2; 4; 5] [Node (KSimple (OOther 1)) [4; 5] [6]; Node (KSimple (OOther 7)) [6; 2] [3]] [3].
Definition alt1' : region := Region [0; 2; 3; 4] [Node (KSimple (OOther 1)) [3; 4] [5]] [2].
Example example_sunk : sink_nodes (extent example) example = Region [0; 1; 2] [Node (KSimple (OOther 2)) [1; 2] [4]; Node (KGamma [alt0'; alt1']) [0; 4; 1; 2] [5]] [5].
Proof. vm_compute. reflexivity. Qed.
Lemma simple_good A l res : good_region (Region A l res) -> (forall n, n ∈ l -> exists o, nkind n = KSimple o) -> good (Region A l res).
Proof. intros H Hs. constructor; [done|]. intros n b Hn Hb. destruct (Hs n Hn) as [o E]. unfold bodies in Hb. rewrite E in Hb. by apply elem_of_nil in Hb. Qed.
Lemma alt0_good : good alt0.
Proof.
  apply simple_good.
  - split; [split; [|split]|split].
    + by_computation.
    + intros n x Hn Hx. apply elem_of_list_singleton in Hn as ->. by revert x Hx; apply all_in.
    + by apply all_in.
    + exists (fun x => x). cbn [rnodes rargs]. split; [intros n x y Hn Hx Hy | intros x n y Hx Hn Hy]; apply elem_of_list_singleton in Hn as ->; revert x y Hx Hy; by apply rank_in.
    + intros n Hn. by apply elem_of_list_singleton in Hn as ->.
  - intros n Hn. apply elem_of_list_singleton in Hn as ->. by eexists.
Qed.
Lemma alt1_good : good alt1.
Proof.
  apply simple_good.
  - split; [split; [|split]|split].
    + by_computation.
    + intros n x Hn. by apply elem_of_nil in Hn.
    + by apply all_in.
    + exists (fun x => x). split; [intros n x y Hn | intros x n y Hx Hn]; by apply elem_of_nil in Hn.
    + intros n Hn. by apply elem_of_nil in Hn.
  - intros n Hn. by apply elem_of_nil in Hn.
Qed.
Lemma example_nodes n : n ∈ rnodes example -> n = Node (KSimple (OOther 1)) [1; 2] [3] \/ n = Node (KSimple (OOther 2)) [1; 2] [4] \/ n = branch.
Proof. intros H. apply elem_of_cons in H as [H|H]; [by left|]. apply elem_of_cons in H as [H|H]; [right; by left|]. apply elem_of_list_singleton in H. right. by right. Qed.
Example example_good : good example.
Proof.
  constructor.
  - split; [split; [|split]|split].
    + by_computation.
    + intros n x Hn Hx. apply example_nodes in Hn as [->|[->| ->]]; revert x Hx; by apply all_in.
    + by apply all_in.
    + exists (fun x => x). split; [intros n x y Hn Hx Hy | intros x n y Hx Hn Hy]; apply example_nodes in Hn as [->|[->| ->]]; revert x y Hx Hy; by apply rank_in.
    + intros n Hn. apply example_nodes in Hn as [->|[->| ->]]; [exact I | exact I|]. split; [cbn; lia|]. intros s Hs. apply elem_of_cons in Hs as [->|Hs]; [|apply elem_of_list_singleton in Hs as ->]; (split; [|by split]); [pose proof alt0_good as H | pose proof alt1_good as H]; by inversion H as [? (? & _)].
  - intros n b Hn Hb. apply example_nodes in Hn as [->|[->| ->]]; [by apply elem_of_nil in Hb | by apply elem_of_nil in Hb|]. apply elem_of_cons in Hb as [->|Hb]; [apply alt0_good|]. apply elem_of_list_singleton in Hb as ->. apply alt1_good.
Qed.
(** it is not settled before: the sum is there for the first alternative only *)
Example example_unsunk : ~ sunk example.
Proof.
  intros H. inversion H as [r Hs Hb E]. clear H Hb. subst r. specialize (Hs [Node (KSimple (OOther 1)) [1; 2] [3]; Node (KSimple (OOther 2)) [1; 2] [4]] branch [] eq_refl [alt0; alt1] 0 [3; 4] [5] eq_refl). destruct Hs as [[_ Hs]|Hs]; [specialize (Hs alt0 ltac:(by left)); discriminate Hs|].
  apply (Hs (Node (KSimple (OOther 1)) [1; 2] [3])).
  - by left.
  - split; [exists 3; split; by_computation|]. split; [by_computation|]. intros x Hx. apply elem_of_list_singleton in Hx as ->. split; [by_computation|]. intros m Hm. apply elem_of_cons in Hm as [->|Hm]; [by_computation|]. apply elem_of_list_singleton in Hm as ->. by_computation.
  - exists 0, alt0. split; [reflexivity|]. split.
    + exists 0, 3, 1. split; [reflexivity|]. split; [by_computation|]. split; [reflexivity|]. left. eexists. split; [by left|]. by_computation.
    + intros [|[|k]] s Hk Hn; [reflexivity| |discriminate Hk]. exfalso. injection Hk as <-. destruct Hn as (j & x & a & Hj & Hx & Ha & Hu). apply elem_of_list_singleton in Hx as ->. destruct j as [|[|j]]; [|discriminate Hj|discriminate Hj]. injection Ha as <-. destruct Hu as [(m & Hm & _)|Hu]; [by apply elem_of_nil in Hm|]. apply elem_of_list_singleton in Hu. discriminate Hu.
Qed.
