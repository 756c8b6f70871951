(** The converted function computes what the aggregation tree computes: simulation. *)
From stdpp Require Import base list list_numbers fin_sets gmap.
From Verif.Rvsdg Require Import Model Spec Sem.
From Verif.Construct Require Import Model Spec ProofsSets.

(** the variables whose value matters before a subtree, when those of L matter after it *)
Definition live (t : tree) (L : gset nat) : gset nat := L ∖ full_writes (tree_sets t) ∪ reads (tree_sets t).

Lemma elem_live t L v : v ∈ live t L <-> (v ∈ L /\ v ∉ full_writes (tree_sets t)) \/ v ∈ reads (tree_sets t).
Proof. unfold live. by rewrite elem_of_union, elem_of_difference. Qed.
Lemma live_mono t L L' : L ⊆ L' -> live t L ⊆ live t L'.
Proof. intros H v. rewrite !elem_live. intros [[? ?]|?]; [left; auto | by right]. Qed.
Lemma live_cons t l L v : v ∈ live (Linear (t :: l)) L <-> v ∈ live t (live (Linear l) L).
Proof.
  rewrite !elem_live. cbn [tree_sets map foldr seq_sets reads full_writes]. rewrite !elem_of_union, elem_of_difference.
  destruct (decide (v ∈ full_writes (tree_sets t))), (decide (v ∈ full_writes (foldr seq_sets no_sets (map tree_sets l)))); tauto.
Qed.
Lemma annotate_Linear l w : annotate (Linear l) w = (ALinear (annotate_seq annotate l w).1, (annotate_seq annotate l w).2 ∖ full_writes (tree_sets (Linear l)) ∪ reads (tree_sets (Linear l))).
Proof. cbn [annotate]. by destruct (annotate_seq annotate l w). Qed.
Lemma annotate_Loop b w : annotate (Loop b) w = (ALoop (w ∪ reads (tree_sets (Loop b))) (annotate b (w ∪ reads (tree_sets (Loop b)))).1, (annotate b (w ∪ reads (tree_sets (Loop b)))).2).
Proof. cbn [annotate]. by destruct (annotate b (w ∪ reads (tree_sets (Loop b)))). Qed.
Lemma annotate_cons t l w : annotate_seq annotate (t :: l) w =
  ((annotate t (annotate_seq annotate l w).2).1 :: (annotate_seq annotate l w).1, (annotate t (annotate_seq annotate l w).2).2).
Proof. cbn [annotate_seq]. destruct (annotate_seq annotate l w) as [l' w']. cbn [fst snd]. by destruct (annotate t w'). Qed.
(** the working set contains what is live *)
Lemma working t L w : L ⊆ w -> live t L ⊆ (annotate t w).2.
Proof.
  revert L w. induction t as [l|l IH|l IH|b IH] using tree_ind'; intros L w HL.
  - cbn [annotate snd]. intros v. rewrite elem_live, elem_of_union, elem_of_difference. intros [[H1 H2]|H]; [left; auto | by right].
  - rewrite annotate_Linear. cbn [snd]. assert (H : live (Linear l) L ⊆ (annotate_seq annotate l w).2).
    { clear -IH HL. induction IH as [|t l Ht Hl IH]; [intros v; rewrite elem_live; cbn; intros [[? _]|?]; [auto | set_solver]|].
      rewrite annotate_cons. cbn [snd]. intros v Hv%live_cons. apply (Ht _ _ IH v Hv). }
    intros v Hv. rewrite elem_of_union, elem_of_difference. pose proof (H v Hv) as Hw. apply elem_live in Hv as [[H1 H2]|H1]; auto.
  - cbn [annotate snd]. intros v. rewrite elem_live, !elem_of_union. intros [[H1 H2]|H]; auto.
  - rewrite annotate_Loop. cbn [snd]. intros v Hv. apply (IH (w ∪ reads (tree_sets (Loop b))) _ (reflexivity _)). apply elem_live in Hv. apply elem_live. destruct Hv as [[H1 H2]|H1]; [|by right]. left. split; [apply elem_of_union; auto | done].
Qed.
Lemma working_seq l L w : L ⊆ w -> live (Linear l) L ⊆ (annotate_seq annotate l w).2.
Proof.
  intros HL. induction l as [|t l IH]; [intros v; rewrite elem_live; cbn; intros [[? _]|?]; [auto | set_solver]|].
  rewrite annotate_cons. cbn [snd]. intros v Hv%live_cons. apply (working t _ _ IH v Hv).
Qed.
(** the branch instruction at the end is found *)
Lemma last_annotate l w a : last (map last_block (annotate_seq annotate l w).1) = Some a -> forall t, last l = Some t -> exists w', a = last_block (annotate t w').1.
Proof.
  induction l as [|t l IH]; intros H t' Ht; [done|]. rewrite annotate_cons in H. cbn [fst map] in H. destruct l as [|t2 l].
  - cbn in H, Ht. injection Ht as <-. injection H as <-. by exists w.
  - rewrite annotate_cons in H, IH. cbn [fst map] in H, IH. apply IH; [exact H | exact Ht].
Qed.
Lemma pred_annotate t w p : ends_with t = Some p -> predicate_of (annotate t w).1 = Some p.
Proof.
  revert w. induction t as [l|l IH|l IH|b IH] using tree_ind'; intros w; try done.
  rewrite annotate_Linear. cbn [fst]. unfold predicate_of. cbn [last_block ends_with].
    intros H. destruct (last l) as [t|] eqn:El; [|apply last_None in El as ->; done].
    assert (Ht : ends_with t = Some p). { rewrite fmap_last in H. rewrite El in H. exact H. }
    assert (Hin : t ∈ l). { apply last_Some in El as [l' ->]. apply elem_of_app. right. left. }
    rewrite Forall_forall in IH. specialize (IH t Hin).
    destruct (last (map last_block (annotate_seq annotate l w).1)) as [a|] eqn:Ea.
    - destruct (last_annotate l w a Ea t El) as [w' ->]. exact (IH w' Ht).
    - apply last_None in Ea. destruct l as [|t0 l]; [done|]. rewrite annotate_cons in Ea. done.
Qed.
Lemma elem_cons_ends t l p : ends_with (Linear (t :: l)) = Some p -> (l = [] /\ ends_with t = Some p) \/ (l <> [] /\ ends_with (Linear l) = Some p).
Proof. cbn [ends_with map]. destruct l as [|t2 l]; [cbn; auto|]. intros H. right. split; [done|]. exact H. Qed.

(** insertion of several entries; the last one counts *)
Lemma add_all_spec {V} (vs os : list nat) (m : gmap nat nat) v : length os = length vs ->
  (v ∉ vs /\ add_all vs os m !! v = m !! v /\ forall (xs : list V) σ, upd_all vs xs σ v = σ v) \/
  (exists i o, vs !! i = Some v /\ os !! i = Some o /\ add_all vs os m !! v = Some o /\ forall (xs : list V) σ, length xs = length vs -> xs !! i = Some (upd_all vs xs σ v)).
Proof.
  unfold add_all, upd_all. revert os m. induction vs as [|u vs IH]; intros [|o os] m Hl; try done.
  - left. split; [apply not_elem_of_nil | done].
  - cbn [zip zip_with foldl fst snd]. destruct (IH os (<[u := o]> m) ltac:(cbn in Hl; lia)) as [(H1 & H2 & H3)|(i & o' & H1 & H2 & H3 & H4)].
    + destruct (decide (v = u)) as [->|Hne].
      * right. exists 0, o. split; [done|]. split; [done|]. split; [by rewrite H2, lookup_insert|]. intros [|x xs] σ Hx; [done|]. cbn [zip zip_with foldl fst snd]. rewrite H3. cbn. unfold upd. by rewrite decide_True.
      * left. split; [by apply not_elem_of_cons|]. split; [by rewrite H2, lookup_insert_ne|]. intros [|x xs] σ; [done|]. cbn [zip zip_with foldl fst snd]. rewrite H3. unfold upd. by rewrite decide_False.
    + right. exists (S i), o'. split; [done|]. split; [done|]. split; [done|]. intros [|x xs] σ Hx; [done|]. cbn [zip zip_with foldl fst snd lookup list_lookup]. apply H4. cbn in Hx. lia.
Qed.
Lemma mapM_lookup (m : gmap nat nat) vs os : mapM (fun v => m !! v) vs = Some os -> length os = length vs /\ forall i v o, vs !! i = Some v -> os !! i = Some o -> m !! v = Some o.
Proof.
  intros H%mapM_Some. split; [symmetry; by eapply Forall2_length|]. intros i v o Hv Ho. by apply (Forall2_lookup_lr _ _ _ _ _ _ H Hv Ho).
Qed.
Lemma fresh_eq k s l s' : fresh k s = (l, s') -> l = seq s k /\ s' = s + k.
Proof. by intros [= <- <-]. Qed.

Section Sim.
  Context (order : gset nat -> list nat) (undef : nat -> nat) (match1 : nat).
  Context {V : Type} (ctl : V -> option nat) (content : V -> V) (sem : nat -> list V -> option (list V)) (truth : V -> bool) (addr imp : nat -> V) (M : region).
  Context (Horder : forall s, Permutation (order s) (elements s)).
  Context (Hundef : forall v, exists u, sem (undef v) [] = Some [u]).
  Context (Hmatch : forall v, exists w, sem match1 [v] = Some [w] /\ ctl w = Some (if truth v then 1 else 0)).
  Local Notation store := (nat -> V).
  Local Notation exec := (exec ctl sem truth).
  Local Notation ev := (ev ctl content sem addr imp M).
  Local Notation convert := (convert order undef match1).

  Definition has (e : env (V:=V)) (m : gmap nat nat) : Prop := forall v o, m !! v = Some o -> exists x, ev e o x.
  Definition known (e : env (V:=V)) (m : gmap nat nat) (v : nat) (x : V) : Prop := exists o, m !! v = Some o /\ ev e o x.
  Definition cur (e : env (V:=V)) (m : gmap nat nat) (σ : store) (L : gset nat) : Prop := forall v, v ∈ L -> known e m v (σ v).
  Definition indefs (ns : list node) : Prop := forall n x, n ∈ ns -> x ∈ ndefs n -> x ∈ defs M.

  Lemma order_elem s v : v ∈ order s <-> v ∈ s.
  Proof using Horder. rewrite (Horder s). apply elem_of_elements. Qed.
  Lemma order_nodup s : NoDup (order s).
  Proof using Horder. rewrite (Horder s). apply NoDup_elements. Qed.
  Lemma indefs_app ns ns' : indefs (ns ++ ns') -> indefs ns /\ indefs ns'.
  Proof using. intros H. split; intros n x Hn; apply H; apply elem_of_app; auto. Qed.
  Lemma fold_view e o w x : (o, w) ∈ defs M -> eqn ctl content sem addr imp ev e o w x -> ev e o x.
  Proof using. intros H1 H2. apply ev_fold. exists w. auto. Qed.
  Lemma out_in id k ins outs subs i o ns : indefs ns -> Node id k ins outs subs ∈ ns -> outs !! i = Some o -> (o, out_view id k ins outs subs i) ∈ defs M.
  Proof using. intros H Hn Ho. apply (H _ _ Hn). apply ndefs_unfold. left. apply elem_of_index. by exists i. Qed.
  Lemma arg_in id k ins outs subs r i o ns : indefs ns -> Node id k ins outs subs ∈ ns -> r ∈ subs -> rargs r !! i = Some o -> (o, arg_view k ins outs r i) ∈ defs M.
  Proof using. intros H Hn Hr Ho. apply (H _ _ Hn). apply ndefs_unfold. right. exists r. split; [done|]. left. apply elem_of_index. by exists i. Qed.
  Lemma sub_in id k ins outs subs r ns : indefs ns -> Node id k ins outs subs ∈ ns -> r ∈ subs -> indefs (rnodes r).
  Proof using. intros H Hn Hr n x Hx Hd. apply (H _ _ Hn). apply ndefs_unfold. right. exists r. split; [done|]. right. destruct r. apply rdefs_unfold. by exists n. Qed.

  Lemma cur_sub e m σ L L' : cur e m σ L -> L' ⊆ L -> cur e m σ L'.
  Proof using. intros H HL v Hv. apply H, HL, Hv. Qed.

  (** reading several variables *)
  Lemma known_all e m (σ : store) vs os : mapM (fun v => m !! v) vs = Some os -> (forall v, v ∈ vs -> known e m v (σ v)) -> Forall2 (ev e) os (map σ vs).
  Proof using.
    intros Hm H. apply mapM_lookup in Hm as [Hl Hm]. apply Forall2_same_length_lookup_2; [by rewrite map_length|]. intros i o x Ho Hx.
    rewrite list_lookup_fmap in Hx. destruct (vs !! i) as [v|] eqn:Ev; [|done]. injection Hx as <-. destruct (H v) as (o' & H1 & H2); [by eapply elem_of_list_lookup_2|].
    rewrite (Hm i v o Ev Ho) in H1. by injection H1 as ->.
  Qed.
  (** the values of several variables; where they matter they are the current ones *)
  Lemma has_all e m (σ : store) L vs os : mapM (fun v => m !! v) vs = Some os -> has e m -> cur e m σ L ->
    exists xs, Forall2 (ev e) os xs /\ forall i v x, vs !! i = Some v -> xs !! i = Some x -> v ∈ L -> x = σ v.
  Proof using.
    intros Hm Hh Hc. apply mapM_Some in Hm. induction Hm as [|v o vs os Ho Hm IH].
    - exists []. split; [constructor|]. intros i v x Hi. by rewrite lookup_nil in Hi.
    - destruct IH as (xs & H1 & H2). assert (exists x, ev e o x /\ (v ∈ L -> x = σ v)) as (x & Hx1 & Hx2).
      { destruct (decide (v ∈ L)) as [Hv|Hv]; [|destruct (Hh v o Ho) as [x Hx]; exists x; auto; done]. destruct (Hc v Hv) as (o' & E & Hx). rewrite Ho in E. injection E as <-. exists (σ v). auto. }
      exists (x :: xs). split; [by constructor|]. intros [|i] v' x' Hi Hx' Hv; cbn in Hi, Hx'; [injection Hi as <-; injection Hx' as <-; auto | by apply (H2 i)].
  Qed.
  (** writing several variables *)
  Lemma cur_add e m (σ : store) vs os xs L : has e m -> cur e m σ (L ∖ list_to_set vs) -> length os = length vs -> Forall2 (ev e) os xs ->
    has e (add_all vs os m) /\ cur e (add_all vs os m) (upd_all vs xs σ) L.
  Proof using.
    intros Hh Hc Hl Hf. pose proof (Forall2_length _ _ _ Hf) as Hl'. split.
    - intros v o Ho. destruct (add_all_spec (V:=V) vs os m v Hl) as [(H1 & H2 & H3)|(i & o' & H1 & H2 & H3 & H4)].
      + rewrite H2 in Ho. by apply (Hh v).
      + rewrite H3 in Ho. injection Ho as <-. destruct (Forall2_lookup_l _ _ _ _ _ Hf H2) as (x & _ & Hx). by exists x.
    - intros v Hv. destruct (add_all_spec (V:=V) vs os m v Hl) as [(H1 & H2 & H3)|(i & o' & H1 & H2 & H3 & H4)].
      + rewrite H3. destruct (Hc v) as (o & Ho & Hx). { apply elem_of_difference. split; [done|]. by rewrite elem_of_list_to_set. } exists o. by rewrite H2.
      + specialize (H4 xs σ ltac:(lia)). exists o'. split; [done|]. by apply (Forall2_lookup_lr _ _ _ _ _ _ Hf H2 H4).
  Qed.
  (** the same when the new values are given *)
  Lemma cur_new e m (σ : store) vs os xs L : has e m -> (forall v, v ∈ L -> v ∉ vs -> known e m v (σ v)) -> length os = length vs -> Forall2 (ev e) os xs ->
    (forall i v x, vs !! i = Some v -> xs !! i = Some x -> v ∈ L -> x = σ v) -> has e (add_all vs os m) /\ cur e (add_all vs os m) σ L.
  Proof using.
    intros Hh Hc Hl Hf Hx. pose proof (Forall2_length _ _ _ Hf) as Hl'. split.
    - apply (cur_add e m σ vs os xs ∅); [done| |done|done]. intros v [Hv%elem_of_empty _]%elem_of_difference. done.
    - intros v Hv. destruct (add_all_spec (V:=V) vs os m v Hl) as [(H1 & H2 & H3)|(i & o' & H1 & H2 & H3 & H4)].
      + destruct (Hc v Hv H1) as (o & Ho & Hv'). exists o. by rewrite H2.
      + destruct (Forall2_lookup_l _ _ _ _ _ Hf H2) as (x & Ex & Hev). exists o'. split; [done|]. by rewrite <-(Hx i v x H1 Ex Hv).
  Qed.

  (** a basic block *)
  Lemma sim_tac x m s ns m' s' e (σ σ' : store) L : convert_tac match1 x m s = Some (ns, m', s') -> indefs ns -> exec_tac sem truth x σ σ' -> has e m ->
    cur e m σ (L ∖ list_to_set (tac_writes x) ∪ list_to_set (tac_reads x)) -> has e m' /\ cur e m' σ' L.
  Proof using Hmatch.
    clear Horder Hundef. intros Hcv Hd Hx Hh Hc.
    assert (Hr : forall v, v ∈ tac_reads x -> known e m v (σ v)). { intros v Hv. apply Hc, elem_of_union. right. by apply elem_of_list_to_set. }
    assert (Hw : cur e m σ (L ∖ list_to_set (tac_writes x))). { intros v Hv. apply Hc, elem_of_union. by left. }
    destruct x as [l r|p a b r|p|op ops res]; cbn [convert_tac exec_tac tac_reads tac_writes] in *.
    - destruct (m !! r) as [o|] eqn:Er; [|done]. injection Hcv as <- <- <-. subst σ'. destruct (Hr r) as (o' & Eo & Ho); [left|]. rewrite Er in Eo. injection Eo as <-.
      apply (cur_add e m σ [l] [o] [σ r] L Hh Hw); [done | by repeat constructor].
    - destruct (m !! p) as [op|] eqn:Ep; [|done]. destruct (m !! b) as [ob|] eqn:Eb; [|done]. destruct (m !! a) as [oa|] eqn:Ea; [|done]. injection Hcv as <- <- <-. subst σ'.
      destruct (Hr p) as (o' & Eo & Hp); [left|]. rewrite Ep in Eo. injection Eo as <-.
      destruct (Hr a) as (o' & Eo & Ha); [right; left|]. rewrite Ea in Eo. injection Eo as <-.
      destruct (Hr b) as (o' & Eo & Hb); [right; right; left|]. rewrite Eb in Eo. injection Eo as <-.
      apply (cur_add e m σ [r] [s + 9] [if truth (σ p) then σ a else σ b] L Hh Hw); [done|]. constructor; [|constructor].
      destruct (Hmatch (σ p)) as (w & Hw1 & Hw2).
      assert (Hmv : ev e (s + 1) w). { eapply fold_view; [eapply (out_in _ _ _ _ _ 0 _ _ Hd); [left | done]|]. cbn [out_view eqn]. exists [σ p], [w]. split; [by repeat constructor|]. split; done. }
      eapply fold_view; [eapply (out_in _ _ _ _ _ 0 _ _ Hd); [right; left | done]|]. cbn [out_view eqn nth fmap list_fmap gamma_branch].
      destruct (truth (σ p)).
      + exists w, 1. do 3 eexists. exists [σ b; σ a]. split; [done|]. split; [done|]. split; [done|]. split; [by repeat constructor|].
        eapply fold_view; [eapply (arg_in _ _ _ _ _ _ 2 _ _ Hd); [right; left | right; left | done]|]. cbn [arg_view eqn]. unfold bind. cbn. rewrite !lookup_insert_ne by lia. by rewrite lookup_insert.
      + exists w, 0. do 3 eexists. exists [σ b; σ a]. split; [done|]. split; [done|]. split; [done|]. split; [by repeat constructor|].
        eapply fold_view; [eapply (arg_in _ _ _ _ _ _ 1 _ _ Hd); [right; left | left | done]|]. cbn [arg_view eqn]. unfold bind. cbn. rewrite lookup_insert_ne by lia. by rewrite lookup_insert.
    - injection Hcv as <- <- <-. subst σ'. split; [done|]. intros v Hv. apply Hw. apply elem_of_difference. split; [done|]. by intros ?%elem_of_list_to_set%elem_of_nil.
    - destruct (mapM (fun v => m !! v) ops) as [os|] eqn:Eos; [|done]. cbn in Hcv. injection Hcv as <- <- <-. destruct Hx as (xs & Hx & Hl & ->).
      apply (cur_add e m σ res (seq (S s) (length res)) xs L Hh Hw); [by rewrite seq_length|]. pose proof (known_all e m σ ops os Eos Hr) as Hos.
      apply Forall2_same_length_lookup_2; [by rewrite seq_length|]. intros i o y Ho Hy. eapply fold_view; [eapply (out_in _ _ _ _ _ i _ _ Hd); [left | exact Ho]|].
      cbn [out_view eqn]. by exists (map σ ops), xs.
  Qed.
  Lemma sim_block l m s ns m' s' e (σ σ' : store) L : convert_block match1 l m s = Some (ns, m', s') -> indefs ns -> exec_block sem truth l σ σ' -> has e m ->
    cur e m σ (live (Block l) L) -> has e m' /\ cur e m' σ' L.
  Proof using Hmatch.
    clear Horder Hundef order undef. revert m s ns σ. induction l as [|x l IH]; intros m s ns σ; cbn [convert_block exec_block].
    - intros [= <- <- <-] _ -> Hh Hc. split; [done|]. apply (cur_sub _ _ _ _ _ Hc). intros v Hv. apply elem_live. left. split; [done | by intros ?%elem_of_empty].
    - intros Hcv Hd (σ1 & Hx & Hl) Hh Hc. destruct (convert_tac match1 x m s) as [[[ns1 m1] s1]|] eqn:E1; [|done]. cbn in Hcv.
      destruct (convert_block match1 l m1 s1) as [[[ns2 m2] s2]|] eqn:E2; [|done]. cbn in Hcv. injection Hcv as <- <- <-. apply indefs_app in Hd as [Hd1 Hd2].
      destruct (sim_tac x m s ns1 m1 s1 e σ σ1 (live (Block l) L) E1 Hd1 Hx Hh) as [Hh1 Hc1].
      { apply (cur_sub _ _ _ _ _ Hc). intros v. rewrite elem_live, elem_of_union, elem_of_difference, elem_live, !elem_of_list_to_set. cbn [tree_sets block_sets foldr tac_sets reads full_writes]. unfold block_sets.
        rewrite !elem_of_union, elem_of_difference, !elem_of_list_to_set. destruct (decide (v ∈ tac_writes x)); tauto. }
      exact (IH m1 s1 ns2 σ1 E2 Hd2 Hl Hh1 Hc1).
  Qed.
  Definition pred_ok (e : env (V:=V)) (prev : option nat) (pa : option atree) (m : gmap nat nat) (σ : store) : Prop :=
    forall p, prev = Some p -> pa ≫= predicate_of = Some p /\ known e m p (σ p).
  Definition sim (t : tree) : Prop := forall w L prev pa m s ns m' s' e (σ σ' : store),
    L ⊆ w -> convert pa (annotate t w).1 m s = Some (ns, m', s') -> indefs ns -> exec prev t σ σ' -> has e m -> cur e m σ (live t L) -> pred_ok e prev pa m σ ->
    has e m' /\ cur e m' σ' L /\ forall p, ends_with t = Some p -> known e m' p (σ' p).
  Lemma sim_seq l w L prev pa m s ns m' s' e (σ σ' : store) : Forall sim l ->
    L ⊆ w -> convert_seq convert pa (annotate_seq annotate l w).1 m s = Some (ns, m', s') -> indefs ns -> exec_seq exec prev l σ σ' -> has e m -> cur e m σ (live (Linear l) L) -> pred_ok e prev pa m σ ->
    has e m' /\ cur e m' σ' L /\ forall p, ends_with (Linear l) = Some p -> known e m' p (σ' p).
  Proof using.
    intros Hs HL. revert prev pa m s ns σ. induction Hs as [|t l Ht Hs IH]; intros prev pa m s ns σ.
    - cbn. intros [= <- <- <-] _ -> Hh Hc _. split; [done|]. split; [|done]. apply (cur_sub _ _ _ _ _ Hc). intros v Hv. apply elem_live. left. split; [done | by intros ?%elem_of_empty].
    - rewrite annotate_cons. cbn [fst convert_seq exec_seq]. intros Hcv Hd (σ1 & Hx1 & Hx2) Hh Hc Hp.
      destruct (convert pa (annotate t (annotate_seq annotate l w).2).1 m s) as [[[ns1 m1] s1]|] eqn:E1; [|done]. cbn in Hcv.
      destruct (convert_seq convert (Some (annotate t (annotate_seq annotate l w).2).1) (annotate_seq annotate l w).1 m1 s1) as [[[ns2 m2] s2]|] eqn:E2; [|done]. cbn in Hcv. injection Hcv as <- <- <-. apply indefs_app in Hd as [Hd1 Hd2].
      destruct (Ht _ (live (Linear l) L) prev pa m s ns1 m1 s1 e σ σ1 (working_seq l L w HL) E1 Hd1 Hx1 Hh) as (Hh1 & Hc1 & Hp1).
      { apply (cur_sub _ _ _ _ _ Hc). intros v Hv. by apply live_cons. } { done. }
      destruct (IH (ends_with t) (Some (annotate t (annotate_seq annotate l w).2).1) m1 s1 ns2 σ1 E2 Hd2 Hx2 Hh1 Hc1) as (Hh2 & Hc2 & Hp2).
      { intros p Ep. split; [by apply pred_annotate | by apply Hp1]. }
      split; [done|]. split; [done|]. intros p Ep. apply elem_cons_ends in Ep as [[-> Ep]|[_ Ep]]; [|by apply Hp2].
      cbn in E2. injection E2 as <- <- <-. cbn in Hx2. subst σ1. by apply Hp1.
  Qed.

  Lemma cases_spec f vs xs (l : list atree) s rs s' b c : convert_cases f vs xs l s = Some (rs, s') -> l !! b = Some c ->
    exists k ns m' s'' res, rs !! b = Some (Region (k :: seq (S k) (length vs)) res ns) /\ f None c (add_all vs (seq (S k) (length vs)) ∅) (S k + length vs) = Some (ns, m', s'') /\ mapM (fun v => m' !! v) xs = Some res.
  Proof using.
    revert s rs b. induction l as [|a l IH]; intros s rs b; [done|]. cbn [convert_cases fresh]. intros H Hb.
    destruct (f None a (add_all vs (seq (S s) (length vs)) ∅) (S s + length vs)) as [[[ns m] s1]|] eqn:E1; [|done]. cbn [mbind option_bind] in H.
    destruct (mapM (fun v => m !! v) xs) as [res|] eqn:E2; [|done]. cbn [mbind option_bind] in H.
    destruct (convert_cases f vs xs l s1) as [[rs' s2]|] eqn:E3; [|done]. cbn [mbind option_bind] in H. injection H as <- <-.
    destruct b as [|b].
    - cbn in Hb. injection Hb as <-. exists s, ns, m, s1, res. split; [|by split]. change (Some (Region (S s + length vs - S (length vs) :: seq (S s) (length vs)) res ns) = Some (Region (s :: seq (S s) (length vs)) res ns)). do 3 f_equal. lia.
    - destruct (IH s1 rs' b E3 Hb) as (k & ns' & m' & s'' & res' & H1 & H2 & H3). exists k, ns', m', s'', res'. done.
  Qed.
  Lemma bind_seq k n (xs : list V) i x y z : length xs = n -> xs !! i = Some x -> y ∉ seq k n -> bind ((y, z) :: zip (seq k n) xs) (k + i) = Some x /\ bind (zip (seq k n) xs) (k + i) = Some x.
  Proof using.
    intros Hl Hi Hy. assert (Hi' : i < n) by (apply lookup_lt_Some in Hi; lia).
    assert (H : list_to_map (M:=gmap nat V) (zip (seq k n) xs) !! (k + i) = Some x).
    { apply elem_of_list_to_map_1. { rewrite fst_zip by (rewrite seq_length; lia). apply NoDup_seq. }
      apply elem_of_list_lookup. exists i. apply lookup_zip_with_Some. exists (k + i), x. split; [done|]. split; [by apply lookup_seq | done]. }
    split; [|exact H]. unfold bind. cbn [list_to_map foldr fst snd curry uncurry]. cbn. rewrite lookup_insert_ne; [exact H|]. intros ->. apply Hy. apply elem_of_seq. lia.
  Qed.
  Lemma nth_lookup_Some' {A} (l : list A) i d x : l !! i = Some x -> nth i l d = x.
  Proof using. intros H. apply nth_lookup_Some with (d := d) in H. done. Qed.

  Lemma sim_branch l : Forall sim l -> sim (Branch l).
  Proof using Horder.
    clear Hundef Hmatch. intros Hs w L prev pa m s ns m' s' e σ σ' HL Hcv Hd (p & b & -> & Hb & Hx) Hh Hc Hp.
    set (outs := w ∩ all_writes (tree_sets (Branch l))). set (ins := outs ∖ full_writes (tree_sets (Branch l)) ∪ reads (tree_sets (Branch l))).
    change ((annotate (Branch l) w).1) with (ABranch ins outs (map (fun c => (annotate c outs).1) l)) in Hcv. cbn [Model.convert] in Hcv.
    destruct (Hp p eq_refl) as (Epa & op & Eop & Hop). rewrite Epa in Hcv. cbn [mbind option_bind] in Hcv. rewrite Eop in Hcv. cbn [mbind option_bind] in Hcv.
    destruct (mapM (fun v => m !! v) (order ins)) as [os|] eqn:Eos; [|done]. cbn [mbind option_bind] in Hcv.
    destruct (convert_cases convert (order ins) (order outs) (map (fun c => (annotate c outs).1) l) (S s)) as [[rs s1]|] eqn:Ers; [|done]. cbn [mbind option_bind fresh] in Hcv. injection Hcv as <- <- <-.
    destruct (map (fun c => exec None c) l !! b) as [R|] eqn:ER; [|done]. rewrite list_lookup_fmap in ER. destruct (l !! b) as [c|] eqn:Ec; [|done]. injection ER as <-.
    destruct (cases_spec _ _ _ _ _ _ _ b (annotate c outs).1 Ers) as (k & ns1 & m1 & s2 & res & Hr & Hcv1 & Hres). { by rewrite list_lookup_fmap, Ec. }
    assert (Hcl : c ∈ l) by (by eapply elem_of_list_lookup_2).
    assert (Hout : forall v, v ∈ L -> v ∈ all_writes (tree_sets (Branch l)) -> v ∈ outs) by (intros v H1 H2; apply elem_of_intersection; auto).
    destruct (has_all e m σ (live (Branch l) L) _ _ Eos Hh Hc) as (xs & Hxs & Hxσ). pose proof (Forall2_length _ _ _ Hxs) as Hlx. pose proof (mapM_lookup _ _ _ Eos) as [Hlo _].
    set (e1 := bind ((k, content (σ p)) :: zip (seq (S k) (length (order ins))) xs)).
    assert (Hin : Node s Gamma (op :: os) (seq s1 (length (order outs))) rs ∈ [Node s Gamma (op :: os) (seq s1 (length (order outs))) rs]) by left.
    assert (Hrs : Region (k :: seq (S k) (length (order ins))) res ns1 ∈ rs) by (by eapply elem_of_list_lookup_2).
    assert (Hargs : Forall2 (ev e1) (seq (S k) (length (order ins))) xs).
    { apply Forall2_same_length_lookup_2; [rewrite seq_length; lia|]. intros i o x Ho Hxi. apply lookup_seq in Ho as [-> Hi].
      eapply fold_view; [apply (arg_in _ _ _ _ _ _ (S i) _ _ Hd Hin Hrs); cbn [rargs lookup list_lookup]; by apply lookup_seq|]. cbn [arg_view eqn]. apply (bind_seq (S k) (length (order ins)) xs i x k); [lia | done|]. intros ?%elem_of_seq. lia. }
    destruct (cur_new e1 ∅ σ (order ins) (seq (S k) (length (order ins))) xs (live c (L ∩ all_writes (tree_sets (Branch l))))) as [Hh1 Hc1].
    { intros v o Ho. by rewrite lookup_empty in Ho. }
    { intros v Hv Hn. destruct Hn. apply order_elem. apply elem_live in Hv as [[[H1 H2]%elem_of_intersection H3]|H1]; apply elem_of_union; [left | right; apply Branch_reads; eauto].
      apply elem_of_difference. split; [by apply Hout|]. intros H4. apply H3. by apply (Branch_full l). }
    { by rewrite seq_length. } { done. }
    { intros i v x Hi Hxi Hv. apply (Hxσ i v x Hi Hxi). apply elem_live. apply elem_live in Hv as [[[H1 H2]%elem_of_intersection H3]|H1]; [left; split; [done|] | right; apply Branch_reads; eauto]. intros H4. apply H3. by apply (Branch_full l). }
    rewrite Forall_forall in Hs. destruct (Hs c Hcl outs (L ∩ all_writes (tree_sets (Branch l))) None None _ _ _ _ _ e1 σ σ' ltac:(intros v [H1 H2]%elem_of_intersection; by apply Hout) Hcv1) as (Hh2 & Hc2 & _); [|done|done|done|done|].
    { apply (sub_in _ _ _ _ _ _ _ Hd Hin Hrs). }
    destruct (has_all e1 m1 σ' _ _ _ Hres Hh2 Hc2) as (ys & Hys & Hyσ). pose proof (mapM_lookup _ _ _ Hres) as [Hlr _]. pose proof (Forall2_length _ _ _ Hys) as Hly.
    assert (Hev : Forall2 (ev e) (seq s1 (length (order outs))) ys).
    { apply Forall2_same_length_lookup_2; [rewrite seq_length; lia|]. intros i o y Ho Hy. eapply fold_view; [apply (out_in _ _ _ _ _ i _ _ Hd Hin Ho)|]. cbn [out_view eqn nth].
      exists (σ p), b. do 3 eexists. exists xs. split; [done|]. split; [done|]. split; [by rewrite list_lookup_fmap, Hr|]. cbn [gamma_branch rres rargs nth tail]. split.
      - rewrite snd_zip by (rewrite seq_length; lia). done.
      - rewrite fst_zip by (rewrite seq_length; lia). destruct (Forall2_lookup_r _ _ _ _ _ Hys Hy) as (r & Er & Hry). rewrite (nth_lookup_Some' res i 0 r Er). exact Hry. }
    destruct (cur_new e m σ' (order outs) (seq s1 (length (order outs))) ys L Hh) as [Hh3 Hc3]; [| by rewrite seq_length | done | | done].
    - intros v Hv Hn. rewrite order_elem in Hn. assert (Ha : v ∉ all_writes (tree_sets (Branch l))) by (intros H; by apply Hn, Hout).
      rewrite (frame ctl sem truth (Branch l) (Some p) σ σ' v); [|cbn [Spec.exec]; exists p, b; split; [done|]; split; [done|]; by rewrite list_lookup_fmap, Ec | done].
      apply Hc. apply elem_live. left. split; [done|]. intros H. apply Ha. by apply full_all.
    - intros i v y Hi Hy Hv. apply (Hyσ i v y Hi Hy). apply elem_of_intersection. split; [done|]. apply elem_of_list_lookup_2, order_elem, elem_of_intersection in Hi. tauto.
  Qed.

  Lemma missing_spec vs m s us m' s' e : define_missing undef vs m s = (us, m', s') -> indefs us -> has e m -> has e m' /\ m ⊆ m'.
  Proof using Hundef.
    clear Horder Hmatch. revert m s us. induction vs as [|v vs IH]; intros m s us; cbn [define_missing]; [by intros [= <- <- <-]|].
    destruct (m !! v) as [o|] eqn:Ev; [by apply IH|]. destruct (define_missing undef vs (<[v := S s]> m) (S (S s))) as [[us1 m1] s1] eqn:E1. intros [= <- <- <-] Hd Hh.
    destruct (IH _ _ _ E1) as [H1 H2].
    - intros n x Hn. apply Hd. by right.
    - intros u o [[<- <-]|[Hne Ho]]%lookup_insert_Some; [|by apply (Hh u)]. destruct (Hundef v) as [x Hx]. exists x. eapply fold_view; [eapply (out_in _ _ _ _ _ 0 _ _ Hd); [left | done]|]. cbn [out_view eqn]. exists [], [x]. split; [constructor|]. done.
    - split; [done|]. etrans; [by apply insert_subseteq | exact H2].
  Qed.
  Lemma known_sub e m m' v x : m ⊆ m' -> known e m v x -> known e m' v x.
  Proof using. intros H (o & Ho & Hx). exists o. split; [|done]. by apply (lookup_weaken m m'). Qed.

  Lemma sim_loop b : sim b -> sim (Loop b).
  Proof using Horder Hundef.
    clear Hmatch. intros Hs w L prev pa m s ns m' s' e σ σ' HL Hcv Hd (p & Ep & Hx) Hh Hc _.
    rewrite annotate_Loop in Hcv. cbn [fst tree_sets] in Hcv. set (vs := w ∪ reads (tree_sets b)) in *. cbn [Model.convert] in Hcv.
    destruct (define_missing undef (order vs) m s) as [[us m0] s0] eqn:Eus.
    destruct (mapM (fun v => m0 !! v) (order vs)) as [os|] eqn:Eos; [|done]. cbn [mbind option_bind fresh] in Hcv.
    set (args := seq (S s0) (length (order vs))) in *.
    destruct (convert None (annotate b vs).1 (add_all (order vs) args ∅) (S s0 + length (order vs))) as [[[nsb mb] s1]|] eqn:Eb; [|done]. cbn [mbind option_bind] in Hcv.
    destruct (mapM (fun v => mb !! v) (order vs)) as [posts|] eqn:Eposts; [|done]. cbn [mbind option_bind] in Hcv.
    rewrite (pred_annotate b vs p Ep) in Hcv. cbn [mbind option_bind] in Hcv. destruct (mb !! p) as [op|] eqn:Eop; [|done]. cbn [mbind option_bind] in Hcv. injection Hcv as <- <- <-.
    apply indefs_app in Hd as [Hdu Hd]. destruct (missing_spec _ _ _ _ _ _ e Eus Hdu Hh) as [Hh0 Hsub].
    assert (Hc0 : cur e m0 σ (live (Loop b) L)) by (intros v Hv; apply (known_sub e m); [done | by apply Hc]).
    set (xsn := seq s1 (length (order vs))). set (r := Region args (op :: posts) nsb).
    assert (Hin : Node s0 Theta os xsn [r] ∈ [Node s0 Theta os xsn [r]]) by left.
    pose proof (mapM_lookup _ _ _ Eos) as [Hlo _]. pose proof (mapM_lookup _ _ _ Eposts) as [Hlp _].
    set (lvs := loop_vars os r).
    assert (Hl1 : lvs.*1.*1 = args). { unfold lvs, loop_vars. cbn [rargs rres tail r]. rewrite fst_zip by (rewrite zip_with_length; unfold args; rewrite seq_length; lia). apply fst_zip. unfold args. rewrite seq_length. lia. }
    assert (Hl2 : lvs.*1.*2 = os). { unfold lvs, loop_vars. cbn [rargs rres tail r]. rewrite fst_zip by (rewrite zip_with_length; unfold args; rewrite seq_length; lia). apply snd_zip. unfold args. rewrite seq_length. lia. }
    assert (Hl3 : lvs.*2 = posts). { unfold lvs, loop_vars. cbn [rargs rres tail r]. apply snd_zip. rewrite zip_with_length. unfold args. rewrite seq_length. lia. }
    assert (Hbody : forall xs τ τ', length xs = length (order vs) -> (forall i v x, order vs !! i = Some v -> xs !! i = Some x -> v ∈ live b (L ∪ reads (tree_sets b)) -> x = τ v) -> exec None b τ τ' ->
      exists ys, Forall2 (ev (bind (zip args xs))) posts ys /\ ev (bind (zip args xs)) op (τ' p) /\ forall i v y, order vs !! i = Some v -> ys !! i = Some y -> v ∈ L ∪ reads (tree_sets b) -> y = τ' v).
    { intros xs τ τ' Hlx Hxs Hb. set (e1 := bind (zip args xs)).
      assert (Hargs : Forall2 (ev e1) args xs).
      { apply Forall2_same_length_lookup_2; [unfold args; rewrite seq_length; lia|]. intros i o x Ho Hxi. unfold args in Ho. apply lookup_seq in Ho as [-> Hi].
        eapply fold_view; [apply (arg_in _ _ _ _ _ r i _ _ Hd Hin); [left | by apply lookup_seq]|]. cbn [arg_view eqn]. apply (bind_seq (S s0) (length (order vs)) xs i x 0 x); [lia | done|]. intros ?%elem_of_seq. lia. }
      destruct (cur_new e1 ∅ τ (order vs) args xs (live b (L ∪ reads (tree_sets b)))) as [Hh1 Hc1].
      { intros v o Ho. by rewrite lookup_empty in Ho. }
      { intros v Hv Hn. destruct Hn. apply order_elem. apply elem_live in Hv as [[[H1|H1]%elem_of_union _]|H1]; apply elem_of_union; auto. }
      { unfold args. by rewrite seq_length. } { done. } { done. }
      destruct (Hs vs (L ∪ reads (tree_sets b)) None None _ _ _ _ _ e1 τ τ' ltac:(intros v [H1|H1]%elem_of_union; apply elem_of_union; auto) Eb) as (Hh2 & Hc2 & Hp2); [|done|done|done|done|].
      { apply (sub_in _ _ _ _ _ r _ Hd Hin). left. }
      destruct (has_all e1 mb τ' _ _ _ Eposts Hh2 Hc2) as (ys & Hys & Hyσ). exists ys. split; [done|]. split; [|done].
      destruct (Hp2 p Ep) as (o & Eo & Ho). rewrite Eop in Eo. by injection Eo as <-. }
    assert (Hloop : forall τ τ', repeat_loop ctl (exec None b) p τ τ' -> forall xs, length xs = length (order vs) -> (forall i v x, order vs !! i = Some v -> xs !! i = Some x -> v ∈ live b (L ∪ reads (tree_sets b)) -> x = τ v) ->
      exists ys, Forall2 (fun o y => loop ctl ev op o lvs xs y) posts ys /\ forall i v y, order vs !! i = Some v -> ys !! i = Some y -> v ∈ L ∪ reads (tree_sets b) -> y = τ' v).
    { induction 1 as [τ τ' Hb Hp|τ τ1 τ' Hb Hp Hr IH]; intros xs Hlx Hxs; destruct (Hbody xs τ _ Hlx Hxs Hb) as (ys & Hys & Hop & Hyσ).
      - exists ys. split; [|done]. eapply Forall2_impl; [exact Hys|]. intros o y Hy. eapply loop_exit; rewrite ?Hl1; eauto.
      - destruct (IH ys) as (zs & Hzs & Hzσ). { rewrite <-(Forall2_length _ _ _ Hys). lia. }
        { intros i v y Hi Hy Hv. apply (Hyσ i v y Hi Hy). apply elem_live in Hv as [[H1 _]|H1]; [done | apply elem_of_union; auto]. }
        exists zs. split; [|done]. eapply Forall2_impl; [exact Hzs|]. intros o z Hz. eapply loop_next; rewrite ?Hl1, ?Hl3; eauto. }
    destruct (has_all e m0 σ _ _ _ Eos Hh0 Hc0) as (xs & Hxs & Hxσ). pose proof (Forall2_length _ _ _ Hxs) as Hlx.
    destruct (Hloop σ σ' Hx xs) as (ys & Hys & Hyσ). { lia. }
    { intros i v x Hi Hxi Hv. apply (Hxσ i v x Hi Hxi). apply elem_live. cbn [tree_sets]. apply elem_live in Hv as [[[H1|H1]%elem_of_union H2]|H1]; auto. }
    pose proof (Forall2_length _ _ _ Hys) as Hly.
    assert (Hev : Forall2 (ev e) xsn ys).
    { apply Forall2_same_length_lookup_2; [unfold xsn; rewrite seq_length; lia|]. intros i o y Ho Hy. eapply fold_view; [apply (out_in _ _ _ _ _ i _ _ Hd Hin Ho)|]. cbn [out_view eqn nth].
      exists xs. fold lvs. rewrite Hl2. split; [done|]. cbn [rres r nth]. destruct (Forall2_lookup_r _ _ _ _ _ Hys Hy) as (o' & Eo' & Hry). rewrite (nth_lookup_Some' posts i 0 o' Eo'). exact Hry. }
    destruct (cur_new e m0 σ' (order vs) xsn ys L Hh0) as [Hh3 Hc3]; [| by unfold xsn; rewrite seq_length | done | | done].
    - intros v Hv Hn. destruct Hn. apply order_elem. apply elem_of_union. left. by apply HL.
    - intros i v y Hi Hy Hv. apply (Hyσ i v y Hi Hy). apply elem_of_union. by left.
  Qed.
  Lemma sim_all t : sim t.
  Proof using All.
    induction t as [l|l IH|l IH|b IH] using tree_ind'; [| |by apply sim_branch|by apply sim_loop].
    - intros w L prev pa m s ns m' s' e σ σ' HL Hcv Hd Hx Hh Hc Hp. cbn [annotate fst Model.convert] in Hcv. cbn [Spec.exec] in Hx.
      destruct (sim_block l m s ns m' s' e σ σ' L Hcv Hd Hx Hh Hc) as [H1 H2]. split; [done|]. split; [done|]. intros p Ep.
      destruct (sim_block l m s ns m' s' e σ σ' (L ∪ {[p]}) Hcv Hd Hx Hh) as [_ H4]; [|apply H4; apply elem_of_union; right; by apply elem_of_singleton].
      intros v Hv. apply Hc. apply elem_live in Hv as [[[H3|H3%elem_of_singleton]%elem_of_union H4]|H3]; apply elem_live; [by left| |by right]. subst v. right. destruct (ends_block l p Ep); done.
    - intros w L prev pa m s ns m' s' e σ σ' HL Hcv Hd Hx Hh Hc Hp. rewrite annotate_Linear in Hcv. cbn [fst Model.convert] in Hcv. cbn [Spec.exec] in Hx.
      eapply (sim_seq l w L None None m s ns m' s' e σ σ'); eauto. intros q Hq. done.
  Qed.
End Sim.
