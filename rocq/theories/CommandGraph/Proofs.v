From stdpp Require Import base list list_numbers relations.
From Verif.CommandGraph Require Import Model Spec.

Section Sort.
  Variable succ : nat -> list nat.
  Variable entry : nat.
  Notation edge := (edge succ).
  Notation reachable := (reachable succ).

  (** invariant: nodes = processed nodes followed by the queue *)
  Record Inv (done : list nat) (s : state) : Prop := {
    i_split : nodes s = done ++ to_visit s;
    i_vis : forall v, v ∈ visited s <-> v ∈ nodes s;
    i_nodup : NoDup (nodes s);
    i_reach : forall v, v ∈ nodes s -> reachable entry v;
    i_entry : entry ∈ nodes s;
    i_pred : forall i v, nodes s !! i = Some v -> v = entry \/ exists u j, j < i /\ nodes s !! j = Some u /\ edge u v;
    i_closed : forall u v, u ∈ done -> edge u v -> v ∈ nodes s }.

  Lemma visit_sinks_inv x pos sinks : forall s done,
    (forall v, v ∈ sinks -> edge x v) ->
    nodes s = done ++ to_visit s ->
    (forall v, v ∈ visited s <-> v ∈ nodes s) -> NoDup (nodes s) ->
    (forall v, v ∈ nodes s -> reachable entry v) ->
    (forall i v, nodes s !! i = Some v -> v = entry \/ exists u j, j < i /\ nodes s !! j = Some u /\ edge u v) ->
    nodes s !! pos = Some x ->
    let s' := visit_sinks sinks s in
    exists new, nodes s' = nodes s ++ new /\ to_visit s' = to_visit s ++ new /\
      (forall v, v ∈ new -> v ∈ sinks) /\
      (forall v, v ∈ visited s' <-> v ∈ nodes s') /\ NoDup (nodes s') /\
      (forall v, v ∈ nodes s' -> reachable entry v) /\
      (forall i v, nodes s' !! i = Some v -> v = entry \/ exists u j, j < i /\ nodes s' !! j = Some u /\ edge u v) /\
      (forall v, v ∈ sinks -> v ∈ nodes s').
  Proof.
    induction sinks as [|y sinks IH]; intros s done He Hs Hv Hn Hr Hp Hx; simpl.
    - exists []. rewrite !app_nil_r. repeat split; auto; try apply Hv; try (intros v H; inversion H).
    - destruct (decide (y ∈ visited s)) as [Hin|Hout].
      + destruct (IH s done) as (new & E1 & E2 & E3 & E4 & E5 & E6 & E7 & E8); auto.
        { intros v Hvs. apply He. now right. }
        exists new. repeat split; auto; try apply E4.
        * intros v H. right. auto.
        * intros v H. apply elem_of_cons in H as [->|H]; [|auto]. rewrite E1. apply elem_of_app. left. now apply Hv.
      + assert (y ∉ nodes s) as Hout' by (rewrite <- Hv; assumption).
        set (s1 := {| nodes := nodes s ++ [y]; to_visit := to_visit s ++ [y]; visited := y :: visited s |}).
        destruct (IH s1 done) as (new & E1 & E2 & E3 & E4 & E5 & E6 & E7 & E8); simpl.
        * intros v Hvs. apply He. now right.
        * rewrite Hs. now rewrite app_assoc.
        * intros v. rewrite elem_of_cons, elem_of_app, elem_of_list_singleton, Hv. tauto.
        * apply NoDup_app. split; [assumption|]. split; [|apply NoDup_singleton]. intros v H1 H2.
          apply elem_of_list_singleton in H2. subst. contradiction.
        * intros v H. apply elem_of_app in H as [H|H]; [auto|]. apply elem_of_list_singleton in H. subst v.
          eapply rtc_r; [apply Hr; eapply elem_of_list_lookup_2; exact Hx|]. apply He. now left.
        * intros i v H. apply lookup_app_Some in H as [H|[Hl H]].
          -- destruct (Hp i v H) as [->|(u & j & Hj & Hu & Huv)]; [now left|]. right. exists u, j.
             split; [assumption|]. split; [|assumption]. now apply lookup_app_l_Some.
          -- destruct (i - length (nodes s)) as [|k] eqn:Ek; [|discriminate]. simpl in H. injection H as <-.
             right. exists x, pos. pose proof (lookup_lt_Some _ _ _ Hx). split; [lia|]. split; [now apply lookup_app_l_Some|].
             apply He. now left.
        * now apply lookup_app_l_Some.
        * exists (y :: new). fold s1.
          assert (nodes (visit_sinks sinks s1) = nodes s ++ y :: new) as E1' by (rewrite E1; simpl; now rewrite <- app_assoc).
          split; [exact E1'|]. split; [rewrite E2; simpl; now rewrite <- app_assoc|].
          split; [intros v H; apply elem_of_cons in H as [->|H]; [now left|right; auto]|].
          split; [exact E4|]. split; [exact E5|]. split; [exact E6|]. split; [exact E7|].
          intros v H. apply elem_of_cons in H as [->|H]; [|auto]. rewrite E1'. apply elem_of_app. right. now left.
  Qed.

  Lemma loop_step done x rest s : Inv done s -> to_visit s = x :: rest ->
    exists new, let s' := visit_sinks (succ x) {| nodes := nodes s; to_visit := rest; visited := visited s |} in
      Inv (done ++ [x]) s' /\ nodes s' = nodes s ++ new /\ to_visit s' = rest ++ new /\ (forall v, v ∈ new -> edge x v).
  Proof.
    intros [A B C D E F G] Hq.
    destruct (visit_sinks_inv x (length done) (succ x) {| nodes := nodes s; to_visit := rest; visited := visited s |} (done ++ [x]))
      as (new & E1 & E2 & E3 & E4 & E5 & E6 & E7 & E8); simpl; auto.
    - rewrite A, Hq, <- app_assoc. reflexivity.
    - rewrite A, Hq. rewrite lookup_app_r, Nat.sub_diag by lia. reflexivity.
    - exists new. cbv zeta. simpl in E1, E2. split; [|now auto]. constructor; [| exact E4|exact E5|exact E6| |exact E7|].
      + rewrite E1, E2, A, Hq. rewrite <- !app_assoc. reflexivity.
      + rewrite E1. apply elem_of_app. now left.
      + intros u v Hu Huv. apply elem_of_app in Hu as [Hu|Hu].
        * rewrite E1. apply elem_of_app. left. eapply G; eassumption.
        * apply elem_of_list_singleton in Hu. subst u. now apply E8.
  Qed.
  Lemma Inv_init : Inv [] {| nodes := [entry]; to_visit := [entry]; visited := [entry] |}.
  Proof.
    constructor; simpl.
    - reflexivity.
    - reflexivity.
    - apply NoDup_singleton.
    - intros v H. apply elem_of_list_singleton in H. subst. apply rtc_refl.
    - now left.
    - intros [|i] v H; [injection H as <-; now left|discriminate].
    - intros u v H. inversion H.
  Qed.
  Lemma loop_inv n fuel s done : finite_from succ entry n -> Inv done s -> n - length done <= fuel ->
    exists order s', loop succ fuel s = Some order /\ Inv order s' /\ nodes s' = order /\ to_visit s' = [].
  Proof.
    intros Hfin. revert s done. induction fuel as [|fuel IH]; intros s done HI Hf.
    - simpl. destruct (to_visit s) as [|x rest] eqn:Hq.
      + exists (nodes s), s. split; [reflexivity|]. pose proof (i_split _ _ HI) as A. rewrite Hq, app_nil_r in A. subst done.
        split; [exact HI|]. split; [reflexivity|exact Hq].
      + exfalso. assert (length (nodes s) <= n).
        { assert (nodes s ⊆ seq 0 n). { intros v Hv. apply elem_of_seq. pose proof (Hfin v (i_reach _ _ HI v Hv)). lia. }
          pose proof (submseteq_length _ _ (NoDup_submseteq _ _ (i_nodup _ _ HI) H)). rewrite seq_length in H0. exact H0. }
        rewrite (i_split _ _ HI), Hq, app_length in H. simpl in H. lia.
    - simpl. destruct (to_visit s) as [|x rest] eqn:Hq.
      + exists (nodes s), s. split; [reflexivity|]. pose proof (i_split _ _ HI) as A. rewrite Hq, app_nil_r in A. subst done.
        split; [exact HI|]. split; [reflexivity|exact Hq].
      + destruct (loop_step done x rest s HI Hq) as (new & HI' & _). eapply IH; [exact HI'|].
        rewrite app_length. simpl. lia.
  Qed.

  Lemma sort_inv n fuel : finite_from succ entry n -> n <= fuel ->
    exists order s', sort succ entry fuel = Some order /\ Inv order s' /\ nodes s' = order.
  Proof.
    intros Hfin Hf. destruct (loop_inv n fuel _ [] Hfin Inv_init) as (order & s' & H1 & H2 & H3 & _); [simpl; lia|]. eauto.
  Qed.
  Lemma sort_closed order s' : Inv order s' -> nodes s' = order -> forall v, reachable entry v -> v ∈ order.
  Proof.
    intros HI Hn v Hv. assert (forall u w, reachable u w -> u ∈ order -> w ∈ order) as K.
    { intros u w H. induction H as [|x y z Hxy _ IH]; [auto|]. intros Hx. apply IH. rewrite <- Hn. eapply i_closed; eauto. }
    apply (K entry v Hv). rewrite <- Hn. apply (i_entry _ _ HI).
  Qed.

  (** ** graded graphs *)
  Variable level : nat -> nat.
  Hypothesis Hgraded : graded succ level.
  (** levels along the list never decrease, and the queue spans at most two levels *)
  Record GInv (L : nat) (s : state) : Prop := {
    g_sorted : forall i j u v, i < j -> nodes s !! i = Some u -> nodes s !! j = Some v -> level u <= level v;
    g_queue : exists q1 q2, to_visit s = q1 ++ q2 /\ (forall v, v ∈ q1 -> level v = L) /\ (forall v, v ∈ q2 -> level v = S L) }.
  Lemma sorted_app l new B : (forall i j u v, i < j -> l !! i = Some u -> l !! j = Some v -> level u <= level v) ->
    (forall v, v ∈ l -> level v <= B) -> (forall v, v ∈ new -> level v = B) ->
    forall i j u v, i < j -> (l ++ new) !! i = Some u -> (l ++ new) !! j = Some v -> level u <= level v.
  Proof.
    intros Hl HB Hn i j u v Hij Hu Hv. apply lookup_app_Some in Hu, Hv.
    destruct Hv as [Hv|[Hlj Hv]].
    - destruct Hu as [Hu|[Hli _]]; [eapply Hl; eassumption|]. apply lookup_lt_Some in Hv. lia.
    - apply elem_of_list_lookup_2 in Hv. rewrite (Hn v Hv).
      destruct Hu as [Hu|[_ Hu]]; apply elem_of_list_lookup_2 in Hu; [auto|]. now rewrite (Hn u Hu).
  Qed.
  Lemma loop_sorted fuel s done L order : Inv done s -> GInv L s -> (forall v, v ∈ done -> level v <= L) ->
    loop succ fuel s = Some order ->
    forall i j u v, i < j -> order !! i = Some u -> order !! j = Some v -> level u <= level v.
  Proof.
    revert s done L. induction fuel as [|fuel IH]; intros s done L HI [HS (q1 & q2 & Hq & H1 & H2)] HD HL.
    - simpl in HL. destruct (to_visit s); [|discriminate]. injection HL as <-. exact HS.
    - simpl in HL. destruct (to_visit s) as [|x rest] eqn:Hv; [injection HL as <-; exact HS|].
      destruct (loop_step done x rest s HI Hv) as (new & HI' & E1 & E2 & E3).
      destruct q1 as [|x' q1]; simpl in Hq.
      + (* the queue is at level S L only *)
        destruct q2 as [|x' q2]; [discriminate|]. injection Hq as <- ->.
        eapply (IH _ (done ++ [x]) (S L)); [exact HI'| | |exact HL].
        * constructor.
          -- rewrite E1. apply (sorted_app _ _ (S (S L))); [exact HS| |].
             ++ intros v Hin. rewrite (i_split _ _ HI), Hv in Hin. apply elem_of_app in Hin as [Hin|Hin].
                ** specialize (HD v Hin). lia.
                ** rewrite (H2 v Hin). lia.
             ++ intros v Hin. rewrite (Hgraded x v (E3 v Hin)). rewrite (H2 x) by now left. reflexivity.
          -- exists q2, new. rewrite E2. split; [reflexivity|]. split; [intros v Hin; apply H2; now right|].
             intros v Hin. rewrite (Hgraded x v (E3 v Hin)). rewrite (H2 x) by now left. reflexivity.
        * intros v Hin. apply elem_of_app in Hin as [Hin|Hin]; [specialize (HD v Hin); lia|].
          apply elem_of_list_singleton in Hin. subst v. rewrite (H2 x) by now left. lia.
      + injection Hq as <- ->.
        eapply (IH _ (done ++ [x]) L); [exact HI'| | |exact HL].
        * constructor.
          -- rewrite E1. apply (sorted_app _ _ (S L)); [exact HS| |].
             ++ intros v Hin. rewrite (i_split _ _ HI), Hv in Hin. apply elem_of_app in Hin as [Hin|Hin].
                ** specialize (HD v Hin). lia.
                ** rewrite app_comm_cons in Hin. apply elem_of_app in Hin as [Hin|Hin]; [rewrite (H1 v Hin); lia|rewrite (H2 v Hin); lia].
             ++ intros v Hin. rewrite (Hgraded x v (E3 v Hin)). rewrite (H1 x) by now left. reflexivity.
          -- exists q1, (q2 ++ new). rewrite E2, app_assoc. split; [reflexivity|]. split; [intros v Hin; apply H1; now right|].
             intros v Hin. apply elem_of_app in Hin as [Hin|Hin]; [auto|].
             rewrite (Hgraded x v (E3 v Hin)). rewrite (H1 x) by now left. reflexivity.
        * intros v Hin. apply elem_of_app in Hin as [Hin|Hin]; [auto|].
          apply elem_of_list_singleton in Hin. subst v. rewrite (H1 x) by now left. lia.
  Qed.
  Lemma sort_graded n order : sort succ entry n = Some order ->
    forall i j u v, i < j -> order !! i = Some u -> order !! j = Some v -> level u <= level v.
  Proof.
    intros H. eapply (loop_sorted n _ [] (level entry) order Inv_init); [|intros v Hv; inversion Hv|exact H].
    constructor.
    - intros [|i] [|j] u v Hij Hu Hv; try lia; discriminate.
    - exists [entry], []. split; [reflexivity|]. split; [|intros v Hv; inversion Hv].
      intros v Hv. apply elem_of_list_singleton in Hv. now subst.
  Qed.
End Sort.
