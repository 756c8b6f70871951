(** The conversion does not fail. *)
From stdpp Require Import base list list_numbers fin_sets gmap.
From Verif.Rvsdg Require Import Model.
From Verif.Construct Require Import Model Spec ProofsSets ProofsSim.

(** an upper bound of the working set *)
Lemma seq_upper l w : Forall (fun t => forall w, (annotate t w).2 ⊆ w ∪ reads (tree_sets t)) l ->
  (annotate_seq annotate l w).2 ⊆ w ∪ reads (tree_sets (Linear l)) ∪ full_writes (tree_sets (Linear l)).
Proof.
  induction 1 as [|t l Ht Hl IH]; intros v Hv; [cbn in Hv; rewrite !elem_of_union; auto|]. rewrite annotate_cons in Hv. cbn [snd] in Hv. apply Ht in Hv. cbn [tree_sets map foldr seq_sets reads full_writes].
  rewrite !elem_of_union, elem_of_difference. apply elem_of_union in Hv as [Hv|Hv]; [|tauto]. apply IH in Hv. rewrite !elem_of_union in Hv. cbn [tree_sets] in Hv. destruct (decide (v ∈ full_writes (tree_sets t))); tauto.
Qed.
Lemma upper t w : (annotate t w).2 ⊆ w ∪ reads (tree_sets t).
Proof.
  revert w. induction t as [l|l IH|l IH|b IH] using tree_ind'; intros w v.
  - cbn [annotate snd]. rewrite !elem_of_union, elem_of_difference. tauto.
  - rewrite annotate_Linear. cbn [snd]. rewrite !elem_of_union, elem_of_difference. intros [[H1 H2]|H]; [|tauto]. apply (seq_upper l w IH) in H1. rewrite !elem_of_union in H1. tauto.
  - cbn [annotate snd]. rewrite !elem_of_union, elem_of_difference, elem_of_intersection. tauto.
  - rewrite annotate_Loop. cbn [snd]. intros H%IH. rewrite !elem_of_union in *. cbn [tree_sets] in *. tauto.
Qed.

Section Total.
  Context (order : gset nat -> list nat) (undef : nat -> nat) (match1 : nat).
  Context (Horder : forall s, Permutation (order s) (elements s)).
  Local Notation convert := (convert order undef match1).
  Definition hasv (m : gmap nat nat) (v : nat) : Prop := is_Some (m !! v).

  Lemma mapM_total m vs : (forall v, v ∈ vs -> hasv m v) -> exists os, mapM (fun v => m !! v) vs = Some os /\ length os = length vs.
  Proof using All.
    intros H. assert (is_Some (mapM (fun v => m !! v) vs)) as [os Hos]; [|exists os; split; [done|]; by apply mapM_lookup in Hos as [? _]]. apply mapM_is_Some_2. apply Forall_forall. exact H.
  Qed.
  Lemma add_all_has vs os m v : length os = length vs -> hasv (add_all vs os m) v <-> v ∈ vs \/ hasv m v.
  Proof using All.
    intros Hl. unfold hasv. destruct (add_all_spec (V:=unit) vs os m v Hl) as [(H1 & H2 & _)|(i & o & H1 & H2 & H3 & _)]; [rewrite H2 | rewrite H3].
    - tauto.
    - split; [intros _; left; by eapply elem_of_list_lookup_2 | eauto].
  Qed.
  Lemma total_tac x m s : (forall v, v ∈ tac_reads x -> hasv m v) -> exists ns m' s', convert_tac match1 x m s = Some (ns, m', s') /\ forall v, hasv m' v <-> v ∈ tac_writes x \/ hasv m v.
  Proof using All.
    intros H. destruct x as [l r|p a b r|p|op ops res]; cbn [convert_tac tac_reads tac_writes] in *.
    - destruct (H r) as [o Ho]; [left|]. rewrite Ho. do 3 eexists. split; [done|]. intros v. apply (add_all_has [l] [o]). done.
    - destruct (H p) as [op Hp]; [left|]. destruct (H a) as [oa Ha]; [right; left|]. destruct (H b) as [ob Hb]; [right; right; left|]. rewrite Hp, Hb, Ha. do 3 eexists. split; [done|]. intros v. apply (add_all_has [r] [s + 9]). done.
    - do 3 eexists. split; [done|]. intros v. rewrite elem_of_nil. tauto.
    - destruct (mapM_total m ops H) as (os & Hos & _). rewrite Hos. do 3 eexists. split; [done|]. intros v. apply add_all_has. by rewrite seq_length.
  Qed.
  Lemma total_block l m s : (forall v, v ∈ reads (block_sets l) -> hasv m v) -> exists ns m' s', convert_block match1 l m s = Some (ns, m', s') /\ forall v, hasv m' v <-> v ∈ full_writes (block_sets l) \/ hasv m v.
  Proof using All.
    revert m s. induction l as [|x l IH]; intros m s H; cbn [convert_block].
    - do 3 eexists. split; [done|]. intros v. cbn. rewrite elem_of_empty. tauto.
    - destruct (total_tac x m s) as (ns1 & m1 & s1 & E1 & H1). { intros v Hv. apply H. unfold block_sets. cbn [foldr tac_sets reads]. apply elem_of_union. right. by apply elem_of_list_to_set. }
      rewrite E1. cbn [mbind option_bind]. destruct (IH m1 s1) as (ns2 & m2 & s2 & E2 & H2).
      { intros v Hv. apply H1. destruct (decide (v ∈ tac_writes x)) as [|Hn]; [by left | right]. apply H. unfold block_sets in *. cbn [foldr tac_sets reads]. apply elem_of_union. left. apply elem_of_difference. split; [done|]. by rewrite elem_of_list_to_set. }
      rewrite E2. cbn [mbind option_bind]. do 3 eexists. split; [done|]. intros v. rewrite H2, H1. unfold block_sets. cbn [foldr tac_sets full_writes]. rewrite elem_of_union, elem_of_list_to_set. tauto.
  Qed.
  Lemma total_missing vs m s : exists ns m' s', define_missing undef vs m s = (ns, m', s') /\ forall v, hasv m' v <-> v ∈ vs \/ hasv m v.
  Proof using All.
    revert m s. induction vs as [|u vs IH]; intros m s; cbn [define_missing]; [do 3 eexists; split; [done|]; intros v; rewrite elem_of_nil; tauto|].
    destruct (m !! u) as [o|] eqn:E.
    - destruct (IH m s) as (ns & m' & s' & E1 & H1). exists ns, m', s'. split; [done|]. intros v. rewrite H1, elem_of_cons. split; [tauto|]. intros [[->|?]|?]; [right; unfold hasv; by rewrite E | tauto | tauto].
    - destruct (IH (<[u := S s]> m) (S (S s))) as (ns & m' & s' & E1 & H1). rewrite E1. do 3 eexists. split; [done|]. intros v. rewrite H1, elem_of_cons. pose proof (add_all_has [u] [S s] m v eq_refl) as Ha. cbn in Ha. rewrite Ha, elem_of_list_singleton. tauto.
  Qed.

  Definition pred_has (prev : option nat) (pa : option atree) (m : gmap nat nat) : Prop := forall p, prev = Some p -> pa ≫= predicate_of = Some p /\ hasv m p.
  Definition total (t : tree) : Prop := forall w prev pa m s, tree_ok prev t -> no_gap t -> pred_has prev pa m ->
    (forall v, v ∈ reads (tree_sets t) -> hasv m v) -> (forall v, v ∈ w -> v ∈ all_writes (tree_sets t) -> v ∉ full_writes (tree_sets t) -> hasv m v) ->
    exists ns m' s', convert pa (annotate t w).1 m s = Some (ns, m', s') /\ (forall v, hasv m v -> hasv m' v) /\
      (forall v, v ∈ w -> v ∈ all_writes (tree_sets t) -> hasv m' v) /\ (forall p, ends_with t = Some p -> hasv m' p).

  Lemma total_seq l w prev pa m s : Forall total l -> ok_seq tree_ok prev l -> no_gap (Linear l) -> pred_has prev pa m ->
    (forall v, v ∈ reads (tree_sets (Linear l)) -> hasv m v) -> (forall v, v ∈ w -> v ∈ all_writes (tree_sets (Linear l)) -> v ∉ full_writes (tree_sets (Linear l)) -> hasv m v) ->
    exists ns m' s', convert_seq convert pa (annotate_seq annotate l w).1 m s = Some (ns, m', s') /\ (forall v, hasv m v -> hasv m' v) /\
      (forall v, v ∈ w -> v ∈ all_writes (tree_sets (Linear l)) -> hasv m' v) /\ (forall p, ends_with (Linear l) = Some p -> hasv m' p).
  Proof using All.
    intros Ht. revert prev pa m s. induction Ht as [|t l Ht Hl IH]; intros prev pa m s Hok Hg Hp Hr Hw.
    - do 3 eexists. split; [done|]. split; [done|]. split; [|done]. intros v _ H. cbn in H. by apply elem_of_empty in H.
    - rewrite annotate_cons. cbn [fst convert_seq]. destruct Hok as [Hok1 Hok2]. destruct Hg as (Hg0 & Hg1 & Hg2). cbn [tree_sets map foldr seq_sets reads all_writes full_writes] in Hr, Hw.
      set (w1 := (annotate_seq annotate l w).2). change (foldr seq_sets no_sets (map tree_sets l)) with (tree_sets (Linear l)) in *.
      assert (Hw1 : forall v, v ∈ w1 -> v ∈ w \/ v ∈ reads (tree_sets (Linear l)) \/ v ∈ full_writes (tree_sets (Linear l))).
      { intros v Hv. apply seq_upper in Hv; [|apply Forall_forall; intros ? _; apply upper]. rewrite !elem_of_union in Hv. tauto. }
      assert (Hlive : forall v, (v ∈ w /\ v ∉ full_writes (tree_sets (Linear l))) \/ v ∈ reads (tree_sets (Linear l)) -> v ∈ w1).
      { intros v Hv. apply (working_seq l w w (reflexivity _)). by apply elem_live. }
      destruct (Ht w1 prev pa m s Hok1 Hg1 Hp) as (ns1 & m1 & s1 & E1 & Hm1 & Ha1 & Hp1).
      { intros v Hv. apply Hr. rewrite elem_of_union. auto. }
      { intros v Hv Ha Hf. pose proof (Hg0 v Ha Hf) as Hn. destruct (Hw1 v Hv) as [H|[H|H]]; [| |done].
        - apply Hw; [done | rewrite elem_of_union; auto | rewrite elem_of_union; tauto].
        - apply Hr. rewrite elem_of_union, elem_of_difference. auto. }
      rewrite E1. cbn [mbind option_bind].
      destruct (IH (ends_with t) (Some (annotate t w1).1) m1 s1 Hok2 Hg2) as (ns2 & m2 & s2 & E2 & Hm2 & Ha2 & Hp2).
      { intros p Ep. split; [by apply pred_annotate | by apply Hp1]. }
      { intros v Hv. destruct (decide (v ∈ full_writes (tree_sets t))) as [Hf|Hf]; [apply Ha1; [by apply Hlive; right | by apply full_all]|]. apply Hm1, Hr. rewrite elem_of_union, elem_of_difference. auto. }
      { intros v Hv Ha Hf. destruct (decide (v ∈ full_writes (tree_sets t))) as [Hf'|Hf']; [apply Ha1; [apply Hlive; by left | by apply full_all]|]. apply Hm1, Hw; rewrite ?elem_of_union; tauto. }
      rewrite E2. cbn [mbind option_bind]. do 3 eexists. split; [done|]. split; [auto|]. split.
      + intros v Hv. cbn [tree_sets map foldr seq_sets all_writes]. change (foldr seq_sets no_sets (map tree_sets l)) with (tree_sets (Linear l)). rewrite elem_of_union. intros Ha.
        destruct (decide (v ∈ all_writes (tree_sets (Linear l)))) as [|Hn]; [by apply Ha2|]. destruct Ha as [|Ha]; [done|]. apply Hm2, Ha1; [|done]. apply Hlive. left. split; [done|]. intros H. by apply Hn, full_all.
      + intros p Ep. apply elem_cons_ends in Ep as [[-> Ep]|[_ Ep]]; [|by apply Hp2]. cbn in E2. injection E2 as <- <- <-. by apply Hp1.
  Qed.
  Lemma total_cases l outs ins : Forall total l -> l <> [] -> fold_right and True (map (tree_ok None) l) -> fold_right and True (map no_gap l) ->
    (forall v, v ∈ ins <-> (v ∈ outs /\ v ∉ full_writes (tree_sets (Branch l))) \/ v ∈ reads (tree_sets (Branch l))) ->
    forall l', (forall c, c ∈ l' -> c ∈ l) -> forall s, exists rs s', convert_cases convert (order ins) (order outs) (map (fun c => (annotate c outs).1) l') s = Some (rs, s').
  Proof using All.
    intros Ht Hne Hok Hg Hins. induction l' as [|c l' IH]; intros Hl s; [by do 2 eexists|]. cbn [map convert_cases fresh].
    assert (Hc : c ∈ l) by (apply Hl; left). rewrite Forall_forall in Ht.
    assert (Hokc : tree_ok None c /\ no_gap c).
    { clear -Hok Hg Hc. induction l as [|x l IH]; [by apply elem_of_nil in Hc|]. cbn in Hok, Hg. apply elem_of_cons in Hc as [->|Hc]; [tauto | apply IH; tauto]. }
    destruct (Ht c Hc outs None None (add_all (order ins) (seq (S s) (length (order ins))) ∅) (S s + length (order ins))) as (ns & m & s1 & E1 & Hm & Ha & _); [tauto | tauto | done | | |].
    { intros v Hv. apply add_all_has; [by rewrite seq_length|]. left. rewrite order_elem by done. apply Hins. right. apply Branch_reads. eauto. }
    { intros v Hv Ha Hf. apply add_all_has; [by rewrite seq_length|]. left. rewrite order_elem by done. apply Hins. left. split; [done|]. intros H. apply Hf. by apply (Branch_full l). }
    rewrite E1. cbn [mbind option_bind]. destruct (mapM_total m (order outs)) as (res & Hres & _).
    { intros v Hv. rewrite order_elem in Hv by done. destruct (decide (v ∈ all_writes (tree_sets c))) as [|Hn]; [by apply Ha|]. apply Hm. apply add_all_has; [by rewrite seq_length|]. left. rewrite order_elem by done. apply Hins. left. split; [done|].
      intros H. apply Hn, full_all. by apply (Branch_full l). }
    rewrite Hres. cbn [mbind option_bind]. destruct (IH ltac:(intros c' Hc'; apply Hl; by right) s1) as (rs & s' & E2). rewrite E2. cbn [mbind option_bind]. by do 2 eexists.
  Qed.
  Lemma total_all t : total t.
  Proof using All.
    induction t as [l|l IH|l IH|b IH] using tree_ind'; intros w prev pa m s Hok Hg Hp Hr Hw.
    - cbn [annotate fst Model.convert tree_sets] in *. destruct (total_block l m s Hr) as (ns & m' & s' & E & H). exists ns, m', s'. split; [done|]. split; [intros v Hv; apply H; auto|]. split.
      + intros v Hv Ha. apply H. destruct (decide (v ∈ full_writes (block_sets l))); [auto|]. right. by apply Hw.
      + intros p Ep. apply H. destruct (ends_block l p Ep) as [Hx|Hx]; [right; by apply Hr | by left].
    - rewrite annotate_Linear. cbn [fst Model.convert]. cbn [tree_ok] in Hok. apply (total_seq l w None None m s IH Hok Hg); [done | done | done].
    - destruct Hok as (Hne & (p & ->) & Hok). destruct (Hp p eq_refl) as (Epa & op & Eop).
      cbn [annotate fst Model.convert]. set (outs := w ∩ all_writes (tree_sets (Branch l))). set (ins := outs ∖ full_writes (tree_sets (Branch l)) ∪ reads (tree_sets (Branch l))).
      rewrite Epa. cbn [mbind option_bind]. rewrite Eop. cbn [mbind option_bind].
      destruct (mapM_total m (order ins)) as (os & Hos & _).
      { intros v Hv. rewrite order_elem in Hv by done. apply elem_of_union in Hv as [[[H1 H2]%elem_of_intersection H3]%elem_of_difference|H1]; auto. }
      rewrite Hos. cbn [mbind option_bind]. destruct (total_cases l outs ins IH Hne Hok Hg) with (l' := l) (s := S s) as (rs & s' & E).
      { intros v. unfold ins. by rewrite elem_of_union, elem_of_difference. } { done. }
      rewrite E. cbn [mbind option_bind fresh]. do 3 eexists. split; [done|]. split; [intros v Hv; apply add_all_has; [by rewrite seq_length | auto]|]. split; [|done].
      intros v Hv Ha. apply add_all_has; [by rewrite seq_length|]. left. rewrite order_elem by done. apply elem_of_intersection. auto.
    - destruct Hok as ((p & Ep) & Hok). rewrite annotate_Loop. cbn [fst Model.convert tree_sets]. set (vs := w ∪ reads (tree_sets b)).
      destruct (total_missing (order vs) m s) as (us & m0 & s0 & E0 & H0). rewrite E0. destruct (mapM_total m0 (order vs)) as (os & Hos & _). { intros v Hv. apply H0. auto. }
      rewrite Hos. cbn [mbind option_bind fresh].
      destruct (IH vs None None (add_all (order vs) (seq (S s0) (length (order vs))) ∅) (S s0 + length (order vs))) as (ns & mb & s1 & E1 & Hm & Ha & Hpb); [done | done | done | | |].
      { intros v Hv. apply add_all_has; [by rewrite seq_length|]. left. rewrite order_elem by done. apply elem_of_union. auto. }
      { intros v Hv _ _. apply add_all_has; [by rewrite seq_length|]. left. by rewrite order_elem. }
      rewrite E1. cbn [mbind option_bind]. destruct (mapM_total mb (order vs)) as (posts & Hposts & _). { intros v Hv. apply Hm, add_all_has; [by rewrite seq_length | auto]. }
      rewrite Hposts. cbn [mbind option_bind]. rewrite (pred_annotate b vs p Ep). cbn [mbind option_bind]. destruct (Hpb p Ep) as [op Eop]. rewrite Eop. cbn [mbind option_bind].
      do 3 eexists. split; [done|]. split; [intros v Hv; apply add_all_has; [by rewrite seq_length|]; right; apply H0; auto|]. split; [|done].
      intros v Hv _. apply add_all_has; [by rewrite seq_length|]. left. rewrite order_elem by done. apply elem_of_union. auto.
  Qed.
  (** the body of a function: everything that is demanded at the entry has a value *)
  Lemma total_body l w prev pa m s : ok_seq tree_ok prev l -> fold_right and True (map no_gap l) -> pred_has prev pa m -> (forall v, v ∈ (annotate_seq annotate l w).2 -> hasv m v) ->
    exists ns m' s', convert_seq convert pa (annotate_seq annotate l w).1 m s = Some (ns, m', s') /\ (forall v, v ∈ w -> hasv m' v).
  Proof using All.
    revert prev pa m s. induction l as [|t l IH]; intros prev pa m s Hok Hg Hp Hw; [by do 3 eexists|].
    rewrite annotate_cons in *. cbn [fst snd convert_seq] in *. set (w1 := (annotate_seq annotate l w).2) in *. destruct Hok as [Hok1 Hok2]. destruct Hg as [Hg1 Hg2].
    assert (Hlive : forall v, (v ∈ w1 /\ v ∉ full_writes (tree_sets t)) \/ v ∈ reads (tree_sets t) -> hasv m v). { intros v Hv. apply Hw, (working t w1 w1 (reflexivity _)). by apply elem_live. }
    destruct (total_all t w1 prev pa m s Hok1 Hg1 Hp) as (ns1 & m1 & s1 & E1 & Hm1 & Ha1 & Hp1); [intros v Hv; apply Hlive; auto | intros v Hv _ Hf; apply Hlive; auto|].
    rewrite E1. cbn [mbind option_bind].
    destruct (IH (ends_with t) (Some (annotate t w1).1) m1 s1 Hok2 Hg2) as (ns2 & m2 & s2 & E2 & H2).
    { intros p Ep. split; [by apply pred_annotate | by apply Hp1]. }
    { intros v Hv. destruct (decide (v ∈ all_writes (tree_sets t))) as [|Hn]; [by apply Ha1|]. apply Hm1, Hlive. left. split; [done|]. intros H. by apply Hn, full_all. }
    rewrite E2. cbn [mbind option_bind]. by do 3 eexists.
  Qed.
End Total.
