(** The annotated sets. *)
From stdpp Require Import base list list_numbers fin_sets gmap.
From Verif.Construct Require Import Model Spec.

Section TreeInd.
  Context (P : tree -> Prop) (HB : forall l, P (Block l)) (HL : forall l, Forall P l -> P (Linear l)) (HBr : forall l, Forall P l -> P (Branch l)) (HLo : forall b, P b -> P (Loop b)).
  Fixpoint tree_ind' (t : tree) : P t.
  Proof using HB HL HBr HLo.
    destruct t as [l|l|l|b]; [apply HB | apply HL | apply HBr | apply HLo; apply tree_ind'].
    - induction l as [|t l IH]; [constructor | constructor; [apply tree_ind' | exact IH]].
    - induction l as [|t l IH]; [constructor | constructor; [apply tree_ind' | exact IH]].
  Defined.
End TreeInd.

Lemma branch_reads l s v : v ∈ reads (fold_left case_sets l s) <-> v ∈ reads s \/ exists c, c ∈ l /\ v ∈ reads c.
Proof.
  revert s. induction l as [|c l IH]; intros s; cbn [fold_left].
  - split; [auto|]. intros [?|(c & H & _)]; [done | by apply elem_of_nil in H].
  - rewrite IH. cbn [case_sets reads]. rewrite elem_of_union. split.
    + intros [[H|H]|(c' & H & H')]; [auto | right; exists c; split; [left | done] | right; exists c'; split; [by right | done]].
    + intros [H|(c' & [->|H]%elem_of_cons & H')]; [auto | auto | right; eauto].
Qed.
Lemma branch_all l s v : v ∈ all_writes (fold_left case_sets l s) <-> v ∈ all_writes s \/ exists c, c ∈ l /\ v ∈ all_writes c.
Proof.
  revert s. induction l as [|c l IH]; intros s; cbn [fold_left].
  - split; [auto|]. intros [?|(c & H & _)]; [done | by apply elem_of_nil in H].
  - rewrite IH. cbn [case_sets all_writes]. rewrite elem_of_union. split.
    + intros [[H|H]|(c' & H & H')]; [auto | right; exists c; split; [left | done] | right; exists c'; split; [by right | done]].
    + intros [H|(c' & [->|H]%elem_of_cons & H')]; [auto | auto | right; eauto].
Qed.
Lemma branch_full l s v : v ∈ full_writes (fold_left case_sets l s) <-> v ∈ full_writes s /\ forall c, c ∈ l -> v ∈ full_writes c.
Proof.
  revert s. induction l as [|c l IH]; intros s; cbn [fold_left].
  - split; [|by intros [? _]]. intros H. split; [done|]. by intros c Hc%elem_of_nil.
  - rewrite IH. cbn [case_sets full_writes]. rewrite elem_of_intersection. split.
    + intros [[H1 H2] H3]. split; [done|]. intros c' [->|Hc']%elem_of_cons; auto.
    + intros [H1 H2]. split; [split; [done | apply H2; left]|]. intros c' Hc'. apply H2. by right.
Qed.
Lemma Branch_reads l v : v ∈ reads (tree_sets (Branch l)) <-> exists c, c ∈ l /\ v ∈ reads (tree_sets c).
Proof.
  cbn [tree_sets]. destruct l as [|c l]; cbn [map]; [split; [by intros ?%elem_of_empty | intros (c & H & _); by apply elem_of_nil in H]|]. rewrite branch_reads. split.
  - intros [H|(s & Hs & H)]; [exists c; split; [left | done]|]. apply elem_of_list_In, in_map_iff in Hs as (c' & <- & Hc%elem_of_list_In). exists c'. split; [by right | done].
  - intros (c' & [->|H]%elem_of_cons & H'); [auto|]. right. exists (tree_sets c'). split; [|done]. apply elem_of_list_In, in_map_iff. exists c'. split; [done | by apply elem_of_list_In].
Qed.
Lemma Branch_all l v : v ∈ all_writes (tree_sets (Branch l)) <-> exists c, c ∈ l /\ v ∈ all_writes (tree_sets c).
Proof.
  cbn [tree_sets]. destruct l as [|c l]; cbn [map]; [split; [by intros ?%elem_of_empty | intros (c & H & _); by apply elem_of_nil in H]|]. rewrite branch_all. split.
  - intros [H|(s & Hs & H)]; [exists c; split; [left | done]|]. apply elem_of_list_In, in_map_iff in Hs as (c' & <- & Hc%elem_of_list_In). exists c'. split; [by right | done].
  - intros (c' & [->|H]%elem_of_cons & H'); [auto|]. right. exists (tree_sets c'). split; [|done]. apply elem_of_list_In, in_map_iff. exists c'. split; [done | by apply elem_of_list_In].
Qed.
Lemma Branch_full l v c : v ∈ full_writes (tree_sets (Branch l)) -> c ∈ l -> v ∈ full_writes (tree_sets c).
Proof.
  cbn [tree_sets]. destruct l as [|c0 l]; cbn [map]; [by intros ?%elem_of_empty|]. rewrite branch_full. intros [H1 H2] [->|Hc]%elem_of_cons; [done|]. apply H2. apply elem_of_list_In, in_map_iff. exists c. split; [done | by apply elem_of_list_In].
Qed.
Lemma Branch_full_iff l v : l <> [] -> v ∈ full_writes (tree_sets (Branch l)) <-> forall c, c ∈ l -> v ∈ full_writes (tree_sets c).
Proof.
  intros Hne. split; [intros H c; by apply Branch_full|]. cbn [tree_sets]. destruct l as [|c0 l]; [done|]. cbn [map]. intros H. rewrite branch_full. split; [apply H; left|]. intros s Hs. apply elem_of_list_In, in_map_iff in Hs as (c & <- & Hc%elem_of_list_In). apply H. by right.
Qed.
(** what a fully written set is about: it is part of the written set *)
Lemma full_all t : full_writes (tree_sets t) ⊆ all_writes (tree_sets t).
Proof.
  induction t as [l|l IH|l IH|b IH] using tree_ind'; [| | |done].
  - cbn [tree_sets]. unfold block_sets. induction l as [|x l IH]; [done|]. cbn [foldr tac_sets full_writes all_writes]. intros v. rewrite !elem_of_union. intros [H|H]; [left; by apply IH | by right].
  - cbn [tree_sets]. induction IH as [|t l Ht Hl IH]; [done|]. cbn [map foldr seq_sets full_writes all_writes]. intros v. rewrite !elem_of_union. intros [H|H]; [left; by apply IH | right; by apply Ht].
  - intros v Hv. destruct l as [|c l]; [done|]. apply Branch_all. exists c. split; [left|]. inversion IH; subst. apply H1. by apply (Branch_full (c :: l)); [|left].
Qed.
(** the variables that a basic block reads are in one of the sets *)
Lemma block_operands l x v : x ∈ l -> v ∈ tac_reads x -> v ∈ reads (block_sets l) \/ v ∈ full_writes (block_sets l).
Proof.
  unfold block_sets. induction l as [|y l IH]; [by intros ?%elem_of_nil|]. intros [->|Hx]%elem_of_cons Hv; cbn [foldr tac_sets reads full_writes]; rewrite !elem_of_union, elem_of_difference, !elem_of_list_to_set; [auto|].
  destruct (IH Hx Hv) as [H|H]; [|auto]. destruct (decide (v ∈ tac_writes y)); auto.
Qed.
Lemma ends_block l p : ends_with (Block l) = Some p -> p ∈ reads (tree_sets (Block l)) \/ p ∈ full_writes (tree_sets (Block l)).
Proof.
  cbn [ends_with tree_sets]. destruct (last l) as [x|] eqn:E; [|done]. destruct x as [| |q|]; try done. intros [= <-]. apply (block_operands l (BranchOn q)); [|left]. apply last_Some in E as [l' ->]. apply elem_of_app. right. left.
Qed.

Section Dep.
  Context {V : Type} (ctl : V -> option nat) (sem : nat -> list V -> option (list V)) (truth : V -> bool).
  Local Notation store := (nat -> V).
  Local Notation exec := (exec ctl sem truth).
  Lemma upd_all_spec vs (xs : list V) (σ : store) v : length xs = length vs -> (v ∉ vs /\ upd_all vs xs σ v = σ v) \/ (v ∈ vs /\ forall τ, upd_all vs xs σ v = upd_all vs xs τ v).
  Proof using.
    unfold upd_all. revert xs σ. induction vs as [|u vs IH]; intros [|x xs] σ Hl; try done.
    - left. split; [apply not_elem_of_nil | done].
    - cbn [zip zip_with foldl fst snd]. destruct (IH xs (upd u x σ) ltac:(cbn in Hl; lia)) as [[H1 H2]|[H1 H2]].
      + destruct (decide (v = u)) as [->|Hne].
        * right. split; [left|]. intros τ. rewrite H2. destruct (IH xs (upd u x τ) ltac:(cbn in Hl; lia)) as [[_ H3]|[H3 _]]; [|done]. rewrite H3. unfold upd. by rewrite !decide_True.
        * left. split; [rewrite not_elem_of_cons; done|]. rewrite H2. unfold upd. by rewrite decide_False.
      + right. split; [by right|]. intros τ. apply H2.
  Qed.
  Lemma frame_tac x (σ σ' : store) v : exec_tac sem truth x σ σ' -> v ∉ tac_writes x -> σ' v = σ v.
  Proof using.
    destruct x as [l r|p a b r|p|op ops res]; cbn [exec_tac tac_writes].
    - intros -> H. unfold upd. rewrite decide_False; [done|]. intros ->. apply H. left.
    - intros -> H. unfold upd. rewrite decide_False; [done|]. intros ->. apply H. left.
    - by intros ->.
    - intros (xs & _ & Hl & ->) H. by destruct (upd_all_spec res xs σ v Hl) as [[_ H1]|[H1 _]].
  Qed.
  Lemma frame_block l (σ σ' : store) v : exec_block sem truth l σ σ' -> v ∉ all_writes (block_sets l) -> σ' v = σ v.
  Proof using.
    unfold block_sets. revert σ. induction l as [|x l IH]; intros σ; cbn [exec_block]; [by intros ->|]. intros (σ1 & H1 & H2). cbn [foldr tac_sets all_writes]. rewrite not_elem_of_union, elem_of_list_to_set. intros [H3 H4].
    rewrite (IH σ1 H2 H3). by eapply frame_tac.
  Qed.
  (** a variable that is not in AllWriteSet keeps its value *)
  Lemma frame t prev (σ σ' : store) v : exec prev t σ σ' -> v ∉ all_writes (tree_sets t) -> σ' v = σ v.
  Proof using.
    revert prev σ σ'. induction t as [l|l IH|l IH|b IH] using tree_ind'; intros prev σ σ'; cbn [Spec.exec].
    - apply frame_block.
    - generalize (@None nat) as pv. revert σ. induction IH as [|t l Ht Hl IH]; intros σ pv; cbn [exec_seq]; [by intros -> |]. intros (σ1 & H1 & H2). cbn [tree_sets map foldr seq_sets all_writes]. rewrite not_elem_of_union. intros [H3 H4].
      rewrite (IH σ1 _ H2 H3). by eapply Ht.
    - intros (p & b & _ & _ & H) Hv. rewrite list_lookup_fmap in H. destruct (l !! b) as [c|] eqn:E; [|done]. cbn in H. rewrite Forall_forall in IH. apply elem_of_list_lookup_2 in E. eapply (IH c E); [exact H|]. intros Hc. apply Hv. apply Branch_all. eauto.
    - intros (p & _ & H) Hv. induction H as [σ σ' H _|σ σ1 σ' H _ _ IH']; [by eapply IH|]. rewrite IH'. by eapply IH.
  Qed.
  (** the outcome depends on the variables in ReadSet only, and what is in FullWriteSet does not depend on its old value *)
  Definition agree (A : gset nat) (σ τ : store) : Prop := forall v, v ∈ A -> σ v = τ v.
  Lemma map_agree (l : list nat) (σ τ : store) : (forall v, v ∈ l -> σ v = τ v) -> map σ l = map τ l.
  Proof using. intros H. apply map_ext_in. intros v Hv. apply H. by apply elem_of_list_In. Qed.
  Lemma dep_tac x (σ σ' τ : store) : exec_tac sem truth x σ σ' -> (forall v, v ∈ tac_reads x -> σ v = τ v) -> exists τ', exec_tac sem truth x τ τ' /\ forall v, v ∈ tac_writes x \/ σ v = τ v -> σ' v = τ' v.
  Proof using.
    destruct x as [l r|p a b r|p|op ops res]; cbn [exec_tac tac_reads tac_writes]; intros H Ha.
    - exists (upd l (τ r) τ). split; [done|]. subst. intros v Hv. unfold upd. destruct (decide (v = l)); [apply Ha; left|]. destruct Hv as [Hv%elem_of_list_singleton|]; done.
    - exists (upd r (if truth (τ p) then τ a else τ b) τ). split; [done|]. subst. intros v Hv. unfold upd. destruct (decide (v = r)); [|destruct Hv as [Hv%elem_of_list_singleton|]; done].
      rewrite (Ha p ltac:(left)), (Ha a ltac:(right; left)), (Ha b ltac:(right; right; left)). done.
    - subst. exists τ. split; [done|]. intros v [Hv%elem_of_nil|]; done.
    - destruct H as (xs & Hs & Hl & ->). exists (upd_all res xs τ). split; [exists xs; split; [|done]; by rewrite <-(map_agree ops σ τ)|]. intros v Hv.
      destruct (upd_all_spec res xs σ v Hl) as [[H1 H2]|[_ H2]]; [|apply H2]. destruct Hv as [Hv|Hv]; [done|]. destruct (upd_all_spec res xs τ v Hl) as [[_ H4]|[H3 _]]; [|done]. congruence.
  Qed.
  Lemma dep_block l (σ σ' τ : store) : exec_block sem truth l σ σ' -> agree (reads (block_sets l)) σ τ -> exists τ', exec_block sem truth l τ τ' /\ forall v, v ∈ full_writes (block_sets l) \/ σ v = τ v -> σ' v = τ' v.
  Proof using.
    unfold block_sets. revert σ τ. induction l as [|x l IH]; intros σ τ; cbn [exec_block foldr tac_sets reads full_writes].
    - intros -> _. exists τ. split; [done|]. intros v [Hv%elem_of_empty|]; done.
    - intros (σ1 & H1 & H2) Ha. destruct (dep_tac x σ σ1 τ H1) as (τ1 & G1 & G2). { intros v Hv. apply Ha. apply elem_of_union. right. by apply elem_of_list_to_set. }
      destruct (IH σ1 τ1 H2) as (τ' & G3 & G4).
      { intros v Hv. apply G2. destruct (decide (v ∈ tac_writes x)) as [|Hn]; [by left|]. right. apply Ha. apply elem_of_union. left. apply elem_of_difference. split; [done|]. by rewrite elem_of_list_to_set. }
      exists τ'. split; [eauto|]. intros v Hv. apply G4. rewrite elem_of_union, elem_of_list_to_set in Hv. destruct Hv as [[Hv|Hv]|Hv]; [by left | right; apply G2; by left | right; apply G2; by right].
  Qed.
  Lemma dep t prev (σ σ' τ : store) : exec prev t σ σ' -> agree (reads (tree_sets t)) σ τ -> (forall p, prev = Some p -> σ p = τ p) ->
    exists τ', exec prev t τ τ' /\ (forall v, v ∈ full_writes (tree_sets t) \/ σ v = τ v -> σ' v = τ' v) /\ (forall p, ends_with t = Some p -> σ' p = τ' p).
  Proof using.
    revert prev σ σ' τ. induction t as [l|l IH|l IH|b IH] using tree_ind'; intros prev σ σ' τ; cbn [Spec.exec].
    - intros H Ha _. destruct (dep_block l σ σ' τ H Ha) as (τ' & G1 & G2). exists τ'. split; [done|]. split; [done|]. intros p Hp. apply G2. destruct (ends_block l p Hp) as [Hr|Hf]; [right; by apply Ha | by left].
    - intros H Ha _. assert (Hg : forall pv, (forall p, pv = Some p -> σ p = τ p) -> exec_seq exec pv l σ σ' -> exists τ', exec_seq exec pv l τ τ' /\ (forall v, v ∈ full_writes (tree_sets (Linear l)) \/ σ v = τ v -> σ' v = τ' v) /\ (forall p, ends_with (Linear l) = Some p -> σ' p = τ' p)).
      { clear H. revert σ τ Ha. induction IH as [|t l Ht Hl IH]; intros σ τ Ha pv Hpv H; cbn [exec_seq] in H.
        - subst. exists τ. split; [done|]. split; [|done]. intros v [Hv%elem_of_empty|]; done.
        - destruct H as (σ1 & H1 & H2). cbn [tree_sets map foldr seq_sets reads full_writes] in *.
          destruct (Ht pv σ σ1 τ H1) as (τ1 & G1 & G2 & G3). { intros v Hv. apply Ha. apply elem_of_union. by right. } { done. }
          destruct (IH σ1 τ1) with (pv := ends_with t) as (τ' & G4 & G5 & G6); [|done|done|].
          { intros v Hv. apply G2. destruct (decide (v ∈ full_writes (tree_sets t))); [by left|]. right. apply Ha. apply elem_of_union. left. by apply elem_of_difference. }
          exists τ'. split; [cbn [exec_seq]; eauto|]. split.
          + intros v Hv. apply G5. rewrite elem_of_union in Hv. destruct Hv as [[Hv|Hv]|Hv]; [by left | right; apply G2; by left | right; apply G2; by right].
          + intros p. cbn [ends_with map]. destruct l as [|t' l]; [|apply G6]. cbn. intros Hp. cbn [exec_seq] in H2, G4. subst. by apply G3. }
      by apply Hg.
    - intros (p & b & -> & Hb & H) Ha Hp. rewrite list_lookup_fmap in H. destruct (l !! b) as [c|] eqn:E; [|done]. cbn in H. rewrite Forall_forall in IH. pose proof (elem_of_list_lookup_2 _ _ _ E) as Hc.
      destruct (IH c Hc None σ σ' τ H) as (τ' & G1 & G2 & _); [|done|]. { intros v Hv. apply Ha. apply Branch_reads. eauto. }
      exists τ'. split; [exists p, b; split; [done|]; rewrite <-(Hp p eq_refl); split; [done|]; rewrite list_lookup_fmap, E; done|]. split; [|done]. intros v Hv. apply G2. destruct Hv as [Hv|]; [left; by eapply Branch_full | by right].
    - intros (p & Hp & H) Ha _. cbn [tree_sets] in *. assert (Hg : exists τ', repeat_loop ctl (exec None b) p τ τ' /\ (forall v, v ∈ full_writes (tree_sets b) \/ σ v = τ v -> σ' v = τ' v)).
      { clear prev. revert τ Ha. induction H as [σ σ' H Hc|σ σ1 σ' H Hc _ IH']; intros τ Ha.
        - destruct (IH None σ σ' τ H Ha ltac:(done)) as (τ' & G1 & G2 & G3). exists τ'. split; [|done]. apply rep_exit; [done|]. by rewrite <-(G3 p Hp).
        - destruct (IH None σ σ1 τ H Ha ltac:(done)) as (τ1 & G1 & G2 & G3). destruct (IH' τ1) as (τ' & G4 & G5); [intros v Hv; apply G2; right; by apply Ha|]. exists τ'. split; [eapply rep_next; [exact G1 | by rewrite <-(G3 p Hp) | done]|].
          intros v Hv. apply G5. destruct Hv as [Hv|Hv]; [by left | right; apply G2; by right]. }
      destruct Hg as (τ' & G1 & G2). exists τ'. split; [eauto|]. split; [done|]. done.
  Qed.
End Dep.
