(** The graphs built by the jlc generator *)
From stdpp Require Import base list list_numbers relations.
From Verif.CommandGraph Require Import Model Spec Proofs.

(** chain number k of length m occupies the nodes 2+k*m .. 2+k*m+m-1 *)
Definition chain_edge (m k : nat) (e : nat * nat) : Prop :=
  exists i, i < m /\ e.2 = 2 + k * m + i /\ (e.1 = if decide (i = 0) then 0 else 2 + k * m + (i - 1)).
Definition leaf_of (m k : nat) : nat := if decide (m = 0) then 0 else 2 + k * m + (m - 1).

Lemma elem_snoc {A} (x y : A) l : x ∈ l ++ [y] <-> x ∈ l \/ x = y.
Proof. rewrite elem_of_app, elem_of_list_singleton. reflexivity. Qed.
Lemma add_compilation_chain m k g c : stages c = m -> next_node g = 2 + k * m ->
  let '(g', leaf) := add_compilation g c in
  next_node g' = 2 + S k * m /\ leaf = leaf_of m k /\
  forall e, e ∈ edges g' <-> e ∈ edges g \/ chain_edge m k e.
Proof.
  intros Hm Hn. destruct c as [p o a l], g as [n es]. unfold add_compilation, leaf_of, chain_edge, stages, entry_node in *. simpl in *.
  assert (forall (P : nat -> Prop), (exists i, i < 0 /\ P i) <-> False) as X0 by (intros P; split; [intros (i & Hi & _); lia|tauto]).
  assert (forall (P : nat -> Prop), (exists i, i < 1 /\ P i) <-> P 0) as X1.
  { intros P; split; [intros (i & Hi & H); assert (i = 0) as -> by lia; exact H|intros H; exists 0; split; [lia|exact H]]. }
  assert (forall (P : nat -> Prop), (exists i, i < 2 /\ P i) <-> P 0 \/ P 1) as X2.
  { intros P; split; [intros (i & Hi & H); destruct i as [|[|i]]; [tauto|tauto|lia]|].
    intros [H|H]; [exists 0|exists 1]; (split; [lia|exact H]). }
  assert (forall (P : nat -> Prop), (exists i, i < 3 /\ P i) <-> P 0 \/ P 1 \/ P 2) as X3.
  { intros P; split; [intros (i & Hi & H); destruct i as [|[|[|i]]]; [tauto|tauto|tauto|lia]|].
    intros [H|[H|H]]; [exists 0|exists 1|exists 2]; (split; [lia|exact H]). }
  destruct p, o, a; simpl in *; subst m n; simpl;
    (split; [lia|]); (split; [repeat case_decide; lia|]);
    intros [u v]; rewrite ?elem_snoc; cbn [fst snd];
    rewrite ?X0, ?X1, ?X2, ?X3; rewrite ?pair_equal_spec; repeat case_decide; try lia; intuition lia.
Qed.
Lemma add_compilations_chain m cs : forall k g, Forall (fun c => stages c = m) cs -> next_node g = 2 + k * m ->
  let '(g', leaves) := add_compilations g cs in
  next_node g' = 2 + (k + length cs) * m /\
  (forall l, l ∈ leaves -> exists k', k <= k' < k + length cs /\ l = leaf_of m k') /\
  (forall e, e ∈ edges g' -> e ∈ edges g \/ exists k', k <= k' < k + length cs /\ chain_edge m k' e).
Proof.
  induction cs as [|c cs IH]; intros k g HF Hn; simpl.
  - split; [rewrite Nat.add_0_r; exact Hn|]. split; [intros l H; inversion H|]. intros e He. now left.
  - apply Forall_cons in HF as [Hc HF']. pose proof (add_compilation_chain _ k g c Hc Hn) as H1.
    destruct (add_compilation g c) as [g1 leaf]. destruct H1 as (H1 & Hleaf & He1).
    specialize (IH (S k) g1 HF' H1). destruct (add_compilations g1 cs) as [g2 leaves]. destruct IH as (IH1 & IH2 & IH3).
    split; [rewrite IH1; f_equal; f_equal; lia|]. split.
    + intros l Hl. apply elem_of_cons in Hl as [->|Hl]; [exists k; split; [lia|exact Hleaf]|].
      destruct (IH2 l Hl) as (k' & Hk & E). exists k'. split; [lia|exact E].
    + intros e He. destruct (IH3 e He) as [He'|(k' & Hk & E)].
      * apply He1 in He' as [He'|He']; [now left|]. right. exists k. split; [lia|exact He'].
      * right. exists k'. split; [lia|exact E].
Qed.

Definition chain_level (m : nat) (v : nat) : nat := if decide (v < 2) then 0 else S ((v - 2) mod m).
Definition the_level (m ex : nat) (linker : option nat) (v : nat) : nat :=
  if decide (v = exit_node) then ex
  else if decide (Some v = linker) then S m else chain_level m v.
Lemma chain_mod m k i v : i < m -> v = 2 + k * m + i -> (v - 2) mod m = i.
Proof.
  intros H ->. replace (2 + k * m + i - 2) with (i + k * m) by lia. rewrite Nat.mod_add by lia. apply Nat.mod_small. exact H.
Qed.
Lemma chain_level_edge m n linker ex k e : chain_edge m k e -> k < n -> (forall l, linker = Some l -> l = 2 + n * m) ->
  the_level m ex linker e.2 = S (the_level m ex linker e.1).
Proof.
  intros (i & Hi & Hv & Hu) Hk Hlinker. destruct e as [u v]. simpl in *.
  assert (k * m + i < n * m) as B by nia.
  assert (forall x, x < 2 + n * m -> Some x <> linker) as NL.
  { intros x Hx E. symmetry in E. apply Hlinker in E. lia. }
  unfold the_level, exit_node. assert (v <> 1) by lia. rewrite (decide_False (P := v = 1)) by assumption.
  rewrite (decide_False (P := Some v = linker)) by (apply NL; lia).
  assert (u <> 1) by (destruct (decide (i = 0)); lia). rewrite (decide_False (P := u = 1)) by assumption.
  rewrite (decide_False (P := Some u = linker)) by (apply NL; destruct (decide (i = 0)); lia).
  unfold chain_level. rewrite (decide_False (P := v < 2)) by lia. rewrite (chain_mod m k i v) by assumption.
  destruct (decide (i = 0)) as [->|Hi0].
  - subst u. rewrite decide_True by lia. reflexivity.
  - rewrite decide_False by lia. rewrite (chain_mod m k (i-1) u) by lia. lia.
Qed.
Lemma leaf_level m k n ex linker : k < n -> (forall l, linker = Some l -> l = 2 + n * m) -> the_level m ex linker (leaf_of m k) = m.
Proof.
  intros Hk Hl. unfold leaf_of. destruct (decide (m = 0)) as [->|Hm].
  - unfold the_level, exit_node. rewrite decide_False by lia. rewrite decide_False; [reflexivity|]. intros E. symmetry in E. apply Hl in E. lia.
  - assert (k * m + (m - 1) < n * m) by nia.
    unfold the_level, exit_node. rewrite decide_False by lia. rewrite decide_False.
    2:{ intros E. symmetry in E. apply Hl in E. lia. }
    unfold chain_level. rewrite decide_False by lia. rewrite (chain_mod m k (m-1)) by lia. lia.
Qed.

Lemma generate_graded m cs succ : Forall (fun c => stages c = m) cs -> enumerates succ (generate cs).1 ->
  exists level, graded succ level.
Proof.
  intros HF He. unfold generate in He.
  pose proof (add_compilations_chain m cs 0 {| next_node := 2; edges := [] |} HF eq_refl) as H.
  destruct (add_compilations _ cs) as [g leaves]. destruct H as (Hn & Hl & Hed). simpl in Hn, Hl, Hed.
  assert (forall e, e ∈ edges g -> exists k, k < length cs /\ chain_edge m k e) as Hed'.
  { intros e Hin. destruct (Hed e Hin) as [H|(k & Hk & H)]; [inversion H|]. exists k. split; [lia|exact H]. }
  destruct (existsb requires_linking cs).
  - exists (the_level m (S (S m)) (Some (next_node g))). intros u v Huv. apply He in Huv. simpl in Huv.
    assert (forall l, Some (next_node g) = Some l -> l = 2 + length cs * m) as HL by (intros l E; injection E as <-; lia).
    apply elem_of_app in Huv as [Huv|Huv]; [|apply elem_of_app in Huv as [Huv|Huv]].
    + destruct (Hed' _ Huv) as (k & Hk & Hc). exact (chain_level_edge m _ _ _ k _ Hc Hk HL).
    + apply elem_of_list_fmap in Huv as (l & E & Hin). injection E as -> ->.
      destruct (Hl l Hin) as (k & Hk & ->). rewrite (leaf_level m k (length cs)); [|lia|exact HL].
      unfold the_level, exit_node. rewrite decide_False by lia. rewrite decide_True by reflexivity. reflexivity.
    + apply elem_of_list_singleton in Huv. injection Huv as -> ->.
      unfold the_level, exit_node. rewrite decide_True by reflexivity. rewrite decide_False by lia.
      rewrite decide_True by reflexivity. reflexivity.
  - exists (the_level m (S m) None). intros u v Huv. apply He in Huv. simpl in Huv.
    assert (forall l, None = Some l -> l = 2 + length cs * m) as HL by (intros l E; congruence).
    apply elem_of_app in Huv as [Huv|Huv].
    + destruct (Hed' _ Huv) as (k & Hk & Hc). exact (chain_level_edge m _ _ _ k _ Hc Hk HL).
    + apply elem_of_list_fmap in Huv as (l & E & Hin). injection E as -> ->.
      destruct (Hl l Hin) as (k & Hk & ->). rewrite (leaf_level m k (length cs)); [|lia|exact HL].
      unfold the_level, exit_node. rewrite decide_True by reflexivity. reflexivity.
Qed.

Lemma generate_bounded cs u v : (u, v) ∈ edges (generate cs).1 -> v < next_node (generate cs).1.
Proof.
  assert (forall b g l g' l', add_stage b g l = (g', l') -> (2 <= next_node g) -> (forall u v, (u, v) ∈ edges g -> v < next_node g) ->
    2 <= next_node g' /\ (forall u v, (u, v) ∈ edges g' -> v < next_node g')) as S1.
  { intros [] g l g' l' E H2 H; simpl in E; injection E as <- <-; simpl; [|auto]. split; [lia|].
    intros a b Hin. apply elem_snoc in Hin as [Hin|Hin]; [specialize (H _ _ Hin); lia|]. injection Hin as -> ->. lia. }
  assert (forall cs g g' ls, add_compilations g cs = (g', ls) -> (2 <= next_node g) -> (forall u v, (u, v) ∈ edges g -> v < next_node g) ->
    2 <= next_node g' /\ (forall u v, (u, v) ∈ edges g' -> v < next_node g')) as S2.
  { clear cs u v. induction cs as [|c cs IH]; intros g g' ls E H2 H; simpl in E; [injection E as <- <-; auto|].
    unfold add_compilation in E.
    destruct (add_stage (requires_parsing c) g entry_node) as [g1 l1] eqn:E1.
    destruct (S1 _ _ _ _ _ E1 H2 H) as [A1 B1].
    destruct (add_stage (requires_optimization c) g1 l1) as [g2 l2] eqn:E2.
    destruct (S1 _ _ _ _ _ E2 A1 B1) as [A2 B2].
    destruct (add_stage (requires_assembly c) g2 l2) as [g3 l3] eqn:E3.
    destruct (S1 _ _ _ _ _ E3 A2 B2) as [A3 B3].
    destruct (add_compilations g3 cs) as [g4 ls4] eqn:E4. injection E as <- <-. eapply IH; eassumption. }
  unfold generate. destruct (add_compilations _ cs) as [g ls] eqn:E.
  destruct (S2 _ _ _ _ E) as [A B]; [simpl; lia|intros a b Hin; inversion Hin|].
  destruct (existsb _ cs); simpl; intros Hin.
  - apply elem_of_app in Hin as [Hin|Hin]; [specialize (B _ _ Hin); lia|]. apply elem_of_app in Hin as [Hin|Hin].
    + apply elem_of_list_fmap in Hin as (l & E' & _). injection E' as -> ->. lia.
    + apply elem_of_list_singleton in Hin. injection Hin as -> ->. unfold exit_node. lia.
  - apply elem_of_app in Hin as [Hin|Hin]; [specialize (B _ _ Hin); lia|].
    apply elem_of_list_fmap in Hin as (l & E' & _). injection E' as -> ->. unfold exit_node. lia.
Qed.
Lemma generate_finite cs succ : enumerates succ (generate cs).1 -> finite_from succ entry_node (next_node (generate cs).1).
Proof.
  intros He v Hv. apply rtc_inv_r in Hv as [<-|(u & _ & Huv)].
  - unfold entry_node. assert (forall g l, add_compilations g l = add_compilations g l) by reflexivity.
    unfold generate. destruct (add_compilations {| next_node := 2; edges := [] |} cs) as [g ls] eqn:E.
    destruct (existsb _ cs); simpl; [lia|].
    assert (forall cs g g' ls, add_compilations g cs = (g', ls) -> next_node g <= next_node g') as M.
    { clear. induction cs as [|c cs IH]; intros g g' ls E; simpl in E; [injection E as <- <-; lia|].
      destruct (add_compilation g c) as [g1 l1] eqn:E1. destruct (add_compilations g1 cs) as [g2 l2] eqn:E2.
      injection E as <- <-. specialize (IH _ _ _ E2). enough (next_node g <= next_node g1) by lia.
      unfold add_compilation, add_stage in E1. destruct c as [[] [] [] ?]; simpl in E1; injection E1 as <- <-; simpl; lia. }
    specialize (M _ _ _ _ E). simpl in M. lia.
  - apply He in Huv. eapply generate_bounded; exact Huv.
Qed.
