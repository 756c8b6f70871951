From stdpp Require Import base list fin_sets gmap fin_maps.
From Coq Require Import Lia.
From Verif.Cfg Require Import Model.
From Verif.Domtree Require Import Model Proofs2.
From Verif.CfgOrder Require Import Model Spec Proofs1.

Lemma path_trans g u v w i j : path g u i v -> path g v j w -> path g u (i + j) w.
Proof.
  intros H1 H2. induction H2 as [|j x y H2 IH Hy]; [rewrite Nat.add_0_r; exact H1|].
  rewrite Nat.add_succ_r. eapply path_edge; eassumption.
Qed.
Lemma path_one g u v : v ∈ sinks g u -> path g u 1 v.
Proof. intros H. eapply path_edge; [apply path_nil|exact H]. Qed.

Section Dfs.
  Context (g : cfg).

  (* in the list of finished nodes, an edge leads to a node that finished
     before, or to one from which there is a path back *)
  Definition good (o : list nat) : Prop := forall i x y, o !! i = Some x -> y ∈ sinks g x -> (exists j, j < i /\ o !! j = Some y) \/ reaches g y x.
  Definition pending (st : gset nat * list nat) (n : nat) : Prop := forall w, w ∈ st.1 -> w ∈ st.2 \/ reaches g w n.
  Definition extends (st st' : gset nat * list nat) : Prop :=
    (exists k, st'.2 = st.2 ++ k) /\ (forall w, w ∈ st.1 -> w ∈ st'.1) /\ (forall w, w ∈ st'.1 -> w ∈ st'.2 \/ w ∈ st.1).

  Lemma extends_refl st : extends st st.
  Proof. split; [exists []; rewrite app_nil_r; reflexivity|]. split; [intros w Hw; exact Hw|intros w Hw; right; exact Hw]. Qed.
  Lemma extends_trans a b c : extends a b -> extends b c -> extends a c.
  Proof.
    intros ([k Hk] & A1 & A2) ([k' Hk'] & B1 & B2). split; [exists (k ++ k'); rewrite Hk', Hk, app_assoc; reflexivity|]. split.
    - intros w Hw. apply B1, A1, Hw.
    - intros w Hw. destruct (B2 w Hw) as [H|H]; [left; exact H|]. destruct (A2 w H) as [H'|H']; [|right; exact H'].
      left. rewrite Hk'. apply elem_of_app. left. exact H'.
  Qed.

  Definition visits (f : nat -> gset nat * list nat -> option (gset nat * list nat)) : Prop :=
    forall n st st', good st.2 -> pending st n -> f n st = Some st' -> good st'.2 /\ extends st st' /\ n ∈ st'.2.

  Lemma each_good f : visits f -> forall n ms st st', good st.2 -> pending st n -> (forall m, m ∈ ms -> m ∈ sinks g n) ->
    each f ms st = Some st' -> good st'.2 /\ extends st st' /\ forall m, m ∈ ms -> m ∈ st'.2 \/ reaches g m n.
  Proof.
    intros Hf n. induction ms as [|m ms IH]; intros st st' Hg Hp Hms H; cbn [each] in H.
    - injection H as <-. split; [exact Hg|]. split; [apply extends_refl|]. intros m Hm. apply elem_of_nil in Hm. destruct Hm.
    - assert (Hms' : forall x, x ∈ ms -> x ∈ sinks g n) by (intros x Hx; apply Hms; right; exact Hx).
      assert (Hgrow : forall st1, extends st st1 -> pending st1 n).
      { intros st1 ([k Hk] & _ & E) w Hw. destruct (E w Hw) as [Hw'|Hw']; [left; exact Hw'|]. destruct (Hp w Hw') as [Hd|Hd]; [|right; exact Hd].
        left. rewrite Hk. apply elem_of_app. left. exact Hd. }
      destruct (decide (m ∈ st.1)) as [Hm|Hm]; cbn [mbind option_bind] in H.
      + destruct (IH st st' Hg Hp Hms' H) as (A & B & C). split; [exact A|]. split; [exact B|].
        intros x Hx. apply elem_of_cons in Hx as [->|Hx]; [|exact (C x Hx)].
        destruct (Hp m Hm) as [Hd|Hd]; [left|right; exact Hd]. destruct B as ([k Hk] & _). rewrite Hk. apply elem_of_app. left. exact Hd.
      + destruct (f m st) as [st1|] eqn:E; [|discriminate].
        assert (Hpm : pending st m).
        { intros w Hw. destruct (Hp w Hw) as [Hd|[j Hj]]; [left; exact Hd|]. right. exists (j + 1). eapply path_trans; [exact Hj|]. apply path_one, Hms. left. }
        destruct (Hf m st st1 Hg Hpm E) as (A & B & C).
        destruct (IH st1 st' A (Hgrow st1 B) Hms' H) as (A' & B' & C'). split; [exact A'|]. split; [eapply extends_trans; eassumption|].
        intros x Hx. apply elem_of_cons in Hx as [->|Hx]; [|exact (C' x Hx)].
        left. destruct B' as ([k Hk] & _). rewrite Hk. apply elem_of_app. left. exact C.
  Qed.

  Lemma traverse_good fuel : visits (traverse g fuel).
  Proof.
    induction fuel as [|fuel IH]; intros n st st' Hg Hp H; [discriminate|]. cbn [traverse] in H.
    destruct (each (traverse g fuel) (sinks g n) ({[n]} ∪ st.1, st.2)) as [st1|] eqn:E; [|discriminate].
    cbn [mbind option_bind] in H. injection H as <-.
    assert (Hp0 : pending ({[n]} ∪ st.1, st.2) n).
    { intros w Hw. cbn [fst snd] in *. apply elem_of_union in Hw as [Hw|Hw]; [|exact (Hp w Hw)].
      apply elem_of_singleton in Hw as ->. right. exists 0. apply path_nil. }
    destruct (each_good _ IH n (sinks g n) ({[n]} ∪ st.1, st.2) st1 Hg Hp0 (fun m Hm => Hm) E) as (A & ([k Hk] & B1 & B2) & C).
    cbn [fst snd] in *. split; [|split].
    - intros i x y Hx Hy. apply lookup_app_Some in Hx as [Hx|[Hi Hx]].
      + destruct (A i x y Hx Hy) as [(j & Hj & Hl)|Hr]; [|right; exact Hr]. left. exists j. split; [exact Hj|].
        apply lookup_app_l_Some. exact Hl.
      + apply list_lookup_singleton_Some in Hx as [Hi' <-]. destruct (C y Hy) as [Hd|Hr]; [|right; exact Hr].
        left. apply elem_of_list_lookup in Hd as [j Hj]. exists j. pose proof (lookup_lt_Some _ _ _ Hj). split; [lia|].
        apply lookup_app_l_Some. exact Hj.
    - split; [exists (k ++ [n]); rewrite Hk, <- app_assoc; reflexivity|]. split.
      + intros w Hw. apply B1, elem_of_union. right. exact Hw.
      + intros w Hw. destruct (B2 w Hw) as [H|H]; [left; apply elem_of_app; left; exact H|].
        apply elem_of_union in H as [H|H]; [|right; exact H]. apply elem_of_singleton in H as ->. left. apply elem_of_app. right. left.
    - apply elem_of_app. right. left.
  Qed.

  Context (Hvalid : edges_valid g).

  Theorem postorder_total : is_Some (postorder g) /\ is_Some (reverse_postorder g).
  Proof.
    destruct (postorder_ok g (sinks_nodes g Hvalid)) as (l & E & _). unfold reverse_postorder. rewrite E. split; eexists; reflexivity.
  Qed.

  (* every reachable node once, the entry last, and an edge leads to an
     earlier node, or there is a path back *)
  Theorem postorder_correct l : postorder g = Some l ->
    last l = Some entry /\ NoDup l /\ (forall x, x ∈ l <-> reaches g entry x) /\
    (forall u v, u ∈ l -> v ∈ sinks g u -> reaches g v u \/ before l v u).
  Proof.
    intros H. destruct (postorder_ok g (sinks_nodes g Hvalid)) as (k & E & V). rewrite E in H. injection H as <-.
    assert (Hmem : forall x, x ∈ k ++ [entry] <-> x ∈ k \/ x = entry) by (intros x; rewrite elem_of_app, elem_of_list_singleton; reflexivity).
    split; [apply last_snoc|]. split; [|split].
    - apply NoDup_app. split; [exact (vi_nodup _ _ _ _ V)|]. split; [|apply NoDup_singleton].
      intros x Hx Hx'. apply elem_of_list_singleton in Hx' as ->. destruct (vi_new _ _ _ _ V entry Hx) as [Hn _]. apply Hn, elem_of_singleton. reflexivity.
    - intros x. split.
      + intros Hx. apply Hmem in Hx as [Hx| ->]; [|exists 0; apply path_nil].
        apply elem_of_list_lookup in Hx as [i Hi].
        assert (Hall : forall n i x, length k - i <= n -> k !! i = Some x -> reaches g entry x).
        { induction n as [|n IHn]; intros i' x' Hn Hx.
          - apply lookup_lt_Some in Hx. lia.
          - pose proof (lookup_lt_Some _ _ _ Hx) as Hlt. pose proof (take_drop_middle k i' x' Hx) as Heq.
            destruct (vi_parent _ _ _ _ V _ _ _ (eq_sym Heq)) as [(p & Hp & Hs)|Hs].
            + apply elem_of_list_lookup in Hp as [j Hj]. rewrite lookup_drop in Hj.
              destruct (IHn (S i' + j) p) as [q Hq]; [lia|exact Hj|]. exists (S q). eapply path_edge; eassumption.
            + exists 1. apply path_one. exact Hs. }
        exact (Hall (length k) i x ltac:(lia) Hi).
      + intros [j Hj]. apply Hmem. induction Hj as [|j v w Hp IH Hw]; [right; reflexivity|].
        destruct IH as [IH| ->].
        * destruct (vi_sinks _ _ _ _ V v w IH Hw) as [Hs|Hs]; [right; apply elem_of_singleton in Hs; exact Hs|left; exact Hs].
        * destruct (vi_all _ _ _ _ V w Hw) as [Hs|Hs]; [right; apply elem_of_singleton in Hs; exact Hs|left; exact Hs].
    - intros u v Hu Hv. unfold postorder in E.
      destruct (traverse g (S (length (nodes g))) entry (∅, [])) as [st|] eqn:Et; [|discriminate].
      cbn in E. injection E as E.
      destruct (traverse_good (S (length (nodes g))) entry (∅, []) st) as (A & _ & _); [| |exact Et|].
      { intros i x y Hx. cbn in Hx. rewrite lookup_nil in Hx. discriminate. }
      { intros w Hw. cbn in Hw. apply not_elem_of_empty in Hw. destruct Hw. }
      apply elem_of_list_lookup in Hu as [i Hi]. rewrite E in A.
      destruct (A i u v Hi Hv) as [(j & Hj & Hl)|Hr]; [right; exists j, i; auto|left; exact Hr].
  Qed.

  (* in the reverse, an edge leads to a later node, or there is a path back:
     without cycles it is a topological order *)
  Theorem reverse_postorder_correct l : reverse_postorder g = Some l ->
    head l = Some entry /\ NoDup l /\ (forall x, x ∈ l <-> reaches g entry x) /\
    (forall u v, u ∈ l -> v ∈ sinks g u -> reaches g v u \/ before l u v).
  Proof.
    intros H. unfold reverse_postorder in H. destruct (postorder g) as [k|] eqn:E; [|discriminate]. cbn in H. injection H as <-.
    destruct (postorder_correct k E) as (A & B & C & D). split; [|split; [|split]].
    - destruct k as [|x k _] using rev_ind; [discriminate|]. rewrite last_snoc in A. injection A as ->. rewrite reverse_app. reflexivity.
    - rewrite (reverse_Permutation k). exact B.
    - intros x. rewrite elem_of_reverse. apply C.
    - intros u v Hu Hv. rewrite elem_of_reverse in Hu. destruct (D u v Hu Hv) as [Hr|(i & j & Hij & Hi & Hj)]; [left; exact Hr|].
      right. pose proof (lookup_lt_Some _ _ _ Hi). pose proof (lookup_lt_Some _ _ _ Hj).
      exists (length k - S j), (length k - S i). split; [lia|]. rewrite !reverse_lookup by lia. split.
      + rewrite <- Hj. f_equal. lia.
      + rewrite <- Hi. f_equal. lia.
  Qed.
End Dfs.
