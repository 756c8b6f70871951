(** Allocas whose address does not escape. *)
From stdpp Require Import base list fin_maps fin_sets gmap.
From Coq Require Import ZArith Lia.
From Verif.AliasQuery Require Import Model Spec.
Local Open Scope Z_scope.

Section Escape.
  Context (G : graph) (Hwf : wf G).
  Notation U := (list_to_set (outs G) : gset nat).
  (** the set is closed under the users *)
  Definition passes_in (A : gset nat) (x : nat) : Prop := forall u, u ∈ uses G x -> exists l, user_targets u = Some l /\ forall y, y ∈ l -> y ∈ A.
  Lemma passes_mono A B x : A ⊆ B -> passes_in A x -> passes_in B x.
  Proof. intros H Hp u Hu. destruct (Hp u Hu) as (l & E & Hl). exists l. split; [done|]. intros y Hy. by apply H, Hl. Qed.
  (** the queue: part of the added outputs *)
  Definition qok (qa : list nat * gset nat) : Prop := qa.2 ⊆ U /\ forall x, x ∈ qa.1 -> x ∈ qa.2.
  Definition room (qa : list nat * gset nat) : nat := (length qa.1 + (size U - size qa.2))%nat.
  Lemma enqueue_ok qa x : qok qa -> x ∈ U -> qok (enqueue qa x) /\ room (enqueue qa x) = room qa /\ qa.2 ⊆ (enqueue qa x).2 /\ x ∈ (enqueue qa x).2 /\
    (forall y, y ∈ qa.1 -> y ∈ (enqueue qa x).1) /\ (forall y, y ∈ (enqueue qa x).2 -> y ∈ qa.2 \/ y ∈ (enqueue qa x).1).
  Proof.
    intros [H1 H2] Hx. unfold enqueue. destruct (decide (x ∈ qa.2)) as [Hin|Hn]; [split; [done|]; repeat split; try done; intros y Hy; by left|].
    assert (Hsz : size ({[x]} ∪ qa.2 : gset nat) = S (size qa.2)) by (rewrite size_union by (apply disjoint_singleton_l; done); by rewrite size_singleton).
    assert (Hsub : {[x]} ∪ qa.2 ⊆ U).
    { intros y Hy. apply elem_of_union in Hy as [Hy|Hy]; [|by apply H1]. apply elem_of_singleton in Hy as ->. done. }
    pose proof (subseteq_size _ _ Hsub) as Hle. split; [|split; [|split; [|split; [|split]]]]; cbn.
    - split; [done|]. cbn. intros y Hy. apply elem_of_app in Hy as [Hy|Hy]; [apply elem_of_union_r; by apply H2|]. apply elem_of_list_singleton in Hy as ->. apply elem_of_union_l. by apply elem_of_singleton.
    - unfold room. cbn. rewrite app_length, Hsz. cbn. rewrite Hsz in Hle. lia.
    - intros y Hy. by apply elem_of_union_r.
    - apply elem_of_union_l. by apply elem_of_singleton.
    - intros y Hy. apply elem_of_app. by left.
    - intros y Hy. apply elem_of_union in Hy as [Hy|Hy]; [|by left]. apply elem_of_singleton in Hy as ->. right. apply elem_of_app. right. by apply elem_of_list_singleton.
  Qed.
  (** what happens to queue and set when outputs are enqueued *)
  Definition extends (qa qa' : list nat * gset nat) : Prop := qok qa' /\ room qa' = room qa /\ qa.2 ⊆ qa'.2 /\ (forall y, y ∈ qa.1 -> y ∈ qa'.1) /\ (forall y, y ∈ qa'.2 -> y ∈ qa.2 \/ y ∈ qa'.1).
  Lemma extends_trans a b c : extends a b -> extends b c -> extends a c.
  Proof.
    intros (A1 & A2 & A3 & A4 & A5) (B1 & B2 & B3 & B4 & B5). split; [done|]. split; [congruence|]. split; [by transitivity b.2|]. split; [auto|]. intros y Hy.
    apply B5 in Hy as [Hy|Hy]; [|by right]. apply A5 in Hy as [Hy|Hy]; [by left | right; auto].
  Qed.
  Lemma enqueue_all l qa : qok qa -> (forall x, x ∈ l -> x ∈ U) -> extends qa (fold_left enqueue l qa) /\ forall x, x ∈ l -> x ∈ (fold_left enqueue l qa).2.
  Proof.
    revert qa. induction l as [|x l IH]; intros qa Hq Hl; cbn.
    - split; [split; [done|]; repeat split; [done | done|]; intros y Hy; by left|]. intros x Hx. by apply elem_of_nil in Hx.
    - destruct (enqueue_ok qa x Hq (Hl x ltac:(by left))) as (E1 & E2 & E3 & E4 & E5 & E6). destruct (IH (enqueue qa x) E1 ltac:(intros y Hy; apply Hl; by right)) as [F1 F2].
      split; [eapply extends_trans; [|exact F1]; done|]. intros y Hy. apply elem_of_cons in Hy as [->|Hy]; [|by apply F2]. by apply F1.
  Qed.
  Lemma users_ok us qa qa' : qok qa -> (forall u l x, u ∈ us -> user_targets u = Some l -> x ∈ l -> x ∈ U) -> visit_users us qa = Some qa' ->
    extends qa qa' /\ forall u, u ∈ us -> exists l, user_targets u = Some l /\ forall y, y ∈ l -> y ∈ qa'.2.
  Proof.
    revert qa. induction us as [|u us IH]; intros qa Hq Hu; cbn.
    - intros [= <-]. split; [split; [done|]; repeat split; [done | done|]; intros y Hy; by left|]. intros u Hx. by apply elem_of_nil in Hx.
    - destruct (user_targets u) as [l|] eqn:E; [|done]. intros Hv. destruct (enqueue_all l qa Hq) as [F1 F2]; [intros x Hx; eapply Hu; [left | exact E | exact Hx]|].
      destruct (IH (fold_left enqueue l qa)) as [G1 G2]; [by destruct F1 | intros u' l' x Hu'; apply (Hu u' l' x); by right | done|].
      split; [by eapply extends_trans|]. intros u' Hu'. apply elem_of_cons in Hu' as [->|Hu']; [|by apply G2]. exists l. split; [done|]. intros y Hy. destruct G1 as (_ & _ & G1 & _). by apply G1, F2.
  Qed.
  Lemma queue_ok f qa : qok qa -> (room qa < f)%nat -> (forall x, x ∈ qa.2 -> x ∈ qa.1 \/ passes_in qa.2 x) ->
    match visit_queue G f qa with
    | Done true => exists A, qa.2 ⊆ A /\ forall x, x ∈ A -> passes_in A x
    | Done false => True
    | _ => False
    end.
  Proof using Hwf.
    revert qa. induction f as [|f IH]; intros [q A] Hq Hr Hd; [lia|]. cbn [visit_queue fst snd]. destruct q as [|p q].
    - exists A. split; [done|]. intros x Hx. destruct (Hd x Hx) as [H|H]; [by apply elem_of_nil in H | done].
    - assert (Hq' : qok (q, A)) by (destruct Hq as [H1 H2]; split; [done|]; intros x Hx; apply H2; by right).
      destruct (visit_users (uses G p) (q, A)) as [[q' A']|] eqn:E; [|done].
      destruct (users_ok _ _ _ Hq' ltac:(intros u l x Hu Hl Hx; apply elem_of_list_to_set; by eapply (wf_targets G Hwf)) E) as [(F1 & F2 & F3 & F4 & F5) Fu].
      specialize (IH (q', A') F1). assert (Hr' : (room (q', A') < f)%nat) by (rewrite F2; unfold room in *; cbn in *; lia). specialize (IH Hr').
      cbn [fst snd] in *. feed specialize IH.
      { intros x Hx. apply F5 in Hx as [Hx|Hx]; [|by left]. destruct (Hd x Hx) as [Hx'|Hx']; [|right; by eapply passes_mono].
        apply elem_of_cons in Hx' as [->|Hx']; [right; exact Fu | left; by apply F4]. }
      destruct (visit_queue G f (q', A')) as [[|]| |]; [|done|done|done]. destruct IH as (B & HB & Hp). exists B. split; [by transitivity A'|done].
  Qed.
  Lemma fully_traceable_ok a : match fully_traceable G a with
    | Done true => is_alloca G a = true /\ exists A, a ∈ A /\ forall x, x ∈ A -> passes_in A x
    | Done false => True
    | _ => False
    end.
  Proof using Hwf.
    unfold fully_traceable. destruct (is_alloca G a) eqn:Ea; [|done].
    assert (Ha : a ∈ U) by (apply elem_of_list_to_set; by apply (wf_outs G Hwf)).
    destruct (enqueue_ok ([], ∅) a) as (E1 & E2 & E3 & E4 & E5 & E6); [split; cbn; [set_solver|]; intros x Hx; by apply elem_of_nil in Hx | done|].
    pose proof (queue_ok (S (length (outs G))) (enqueue ([], ∅) a) E1) as H. feed specialize H.
    - rewrite E2. unfold room. cbn. rewrite size_empty. assert (Hs : (size U <= length (outs G))%nat).
      { clear. induction (outs G) as [|x l IH]; cbn; [by rewrite size_empty|]. pose proof (size_union_alt ({[x]} : gset nat) (list_to_set l)) as E.
        rewrite E, size_singleton. assert (Hd : (size (list_to_set l ∖ {[x]} : gset nat) <= size (list_to_set l : gset nat))%nat) by (apply subseteq_size; set_solver). lia. }
      lia.
    - intros x Hx. apply E6 in Hx as [Hx|Hx]; [cbn in Hx; by apply not_elem_of_empty in Hx | by left].
    - destruct (visit_queue G (S (length (outs G))) (enqueue ([], ∅) a)) as [[|]| |]; [|done|done|done]. destruct H as (A & HA & Hp). split; [done|]. exists A. split; [by apply HA | done].
  Qed.

  (** in an execution, the pointers into an object of such an alloca stay in the set *)
  Lemma stack_stays W a n A : execution G W -> (forall x, x ∈ A -> passes_in A x) -> a ∈ A -> forall i o x, happens W i o (Stack a n, x) -> o ∈ A.
  Proof using Hwf.
    intros HW HA Ha i. induction (lt_wf i) as [i _ IH]. intros o x Hh. pose proof (ex_events G W HW i o _ Hh) as Hj.
    assert (Hstep : forall y z, operand G o y -> from W everything i y (Stack a n, z) -> o ∈ A).
    { intros y z Hop (j & Hji & _ & Hy). assert (Hin : y ∈ A) by (by eapply IH). apply (wf_uses G Hwf) in Hop. pose proof (HA y Hin) as Hp.
      assert (Hu : forall u, u ∈ uses G y -> match user_targets u with Some l => o ∈ l | None => True end -> o ∈ A).
      { intros u Hu Hl. destruct (Hp u Hu) as (l & E & Hl'). rewrite E in Hl. by apply Hl'. }
      unfold used_by in Hop. destruct (kind_of G o); try done.
      - destruct Hop as [-> Hop]. apply (Hu _ Hop). cbn. by apply elem_of_list_singleton.
      - destruct Hop as [_ Hop]. apply (Hu _ Hop). cbn. by apply elem_of_list_singleton.
      - destruct Hop as [_ Hop]. apply (Hu _ Hop). cbn. by apply elem_of_list_singleton.
      - destruct Hop as [-> Hop]. apply (Hu _ Hop). cbn. right. by apply elem_of_list_singleton.
      - destruct Hop as [[-> Hop]|[-> [out Hop]]]; apply (Hu _ Hop); cbn; [by apply elem_of_list_singleton | by left].
      - destruct Hop as [-> (l & Ho & Hop)]. by apply (Hu _ Hop).
      - destruct Hop as [-> Hop]. apply (Hu _ Hop). cbn. by apply elem_of_list_singleton.
      - destruct Hop as [-> Hop]. by apply (Hu _ Hop). }
    unfold operand in Hstep. unfold justified in Hj. destruct (kind_of G o); cbn in Hj; try done.
    - destruct Hj as [m [= <- <- ->]]. done.
    - by destruct Hj as [m Hj].
    - destruct Hj as (y & Hf & _). by eapply Hstep.
    - destruct Hj as [Hj|Hj]; eapply Hstep; [by left | exact Hj | by right | exact Hj].
    - destruct Hj as (r & Hr & Hj). by eapply Hstep.
    - by eapply Hstep.
    - destruct Hj as [Hj|Hj]; eapply Hstep; [by left | exact Hj | by right | exact Hj].
    - by eapply Hstep.
    - by eapply Hstep.
    - by eapply Hstep.
    - destruct Hj as (o' & j & y & Hji & Hh' & He). assert (Hin : o' ∈ A) by (by eapply IH). exfalso.
      destruct He as [He|He]; destruct (HA o' Hin _ He) as (l & E & _); discriminate E.
  Qed.
  Lemma no_stack_elsewhere W a n i o x : execution G W -> fully_traceable G a = Done true -> kind_of G o = Other -> happens W i o (Stack a n, x) -> False.
  Proof using Hwf.
    intros HW Hf Hk Hh. pose proof (fully_traceable_ok a) as H. rewrite Hf in H. destruct H as (_ & A & Ha & HA). pose proof (ex_events G W HW i o _ Hh) as Hj. unfold justified in Hj. rewrite Hk in Hj. cbn in Hj.
    destruct Hj as (o' & j & y & _ & Hh' & He). assert (Hin : o' ∈ A) by (by eapply stack_stays).
    destruct He as [He|He]; destruct (HA o' Hin _ He) as (l & E & _); discriminate E.
  Qed.
End Escape.
