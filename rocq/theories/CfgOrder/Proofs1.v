From stdpp Require Import base list fin_sets gmap fin_maps.
From Coq Require Import Lia.
From Verif.Cfg Require Import Model.
From Verif.Domtree Require Import Model Proofs2.
From Verif.CfgOrder Require Import Model Spec.

Section Bfs.
  Context (g : cfg) (Hvalid : edges_valid g).

  Lemma sinks_nodes n m : m ∈ sinks g n -> m ∈ nodes g.
  Proof.
    intros H. unfold nodes. destruct (Hvalid n m H) as [->|[b Hb]].
    - right. left.
    - right. right. apply elem_of_list_fmap. exists (m, b). split; [reflexivity|]. apply elem_of_map_to_list. exact Hb.
  Qed.

  Lemma expand_ok ms : (forall m, m ∈ ms -> m ∈ nodes g) -> forall next l vis, NoDup l -> (forall x, x ∈ vis <-> x ∈ l) ->
    exists new vis', expand ms (next, l, vis) = (next ++ new, l ++ new, vis') /\ NoDup (l ++ new) /\ (forall x, x ∈ vis' <-> x ∈ l ++ new) /\
      (forall x, x ∈ new -> x ∈ ms) /\ (forall x, x ∈ ms -> x ∈ l ++ new) /\ left_over g vis' + length new <= left_over g vis.
  Proof.
    induction ms as [|m ms IH]; intros Hms next l vis Hn Hv; cbn [expand].
    - exists [], vis. rewrite !app_nil_r. split; [reflexivity|]. split; [exact Hn|]. split; [exact Hv|].
      split; [intros x Hx; apply elem_of_nil in Hx; destruct Hx|]. split; [intros x Hx; apply elem_of_nil in Hx; destruct Hx|]. simpl. lia.
    - assert (Hms' : forall x, x ∈ ms -> x ∈ nodes g) by (intros x Hx; apply Hms; right; exact Hx).
      destruct (decide (m ∈ vis)) as [Hm|Hm].
      + destruct (IH Hms' next l vis Hn Hv) as (new & vis' & E & A & B & C & D & F). exists new, vis'.
        split; [exact E|]. split; [exact A|]. split; [exact B|]. split; [intros x Hx; right; exact (C x Hx)|]. split; [|exact F].
        intros x Hx. apply elem_of_cons in Hx as [->|Hx]; [|exact (D x Hx)]. apply elem_of_app. left. apply Hv. exact Hm.
      + assert (Hn' : NoDup (l ++ [m])).
        { apply NoDup_app. split; [exact Hn|]. split; [|apply NoDup_singleton]. intros x Hx Hx'. apply elem_of_list_singleton in Hx' as ->. apply Hm, Hv, Hx. }
        assert (Hv' : forall x, x ∈ ({[m]} ∪ vis : gset nat) <-> x ∈ l ++ [m]).
        { intros x. rewrite elem_of_union, elem_of_singleton, elem_of_app, elem_of_list_singleton, Hv. tauto. }
        destruct (IH Hms' (next ++ [m]) (l ++ [m]) _ Hn' Hv') as (new & vis' & E & A & B & C & D & F).
        rewrite <- !app_assoc in E. rewrite <- app_assoc in A. cbn [app] in E, A.
        assert (Hre : forall x, x ∈ (l ++ [m]) ++ new <-> x ∈ l ++ m :: new) by (intros x; rewrite <- app_assoc; reflexivity).
        exists (m :: new), vis'. split; [exact E|]. split; [exact A|]. split; [intros x; rewrite B; apply Hre|].
        split; [intros x Hx; apply elem_of_cons in Hx as [->|Hx]; [left|right; exact (C x Hx)]|]. split.
        * intros x Hx. apply elem_of_cons in Hx as [->|Hx]; [apply elem_of_app; right; left|]. apply Hre, D, Hx.
        * pose proof (left_over_lt g vis m (Hms m (elem_of_list_here _ _)) Hm). simpl. lia.
  Qed.

  Record binv (done next : list nat) (lv : nat -> nat) : Prop := {
    b_entry : entry ∈ done ++ next /\ lv entry = 0;
    b_path x : x ∈ done ++ next -> path g entry (lv x) x;
    b_sorted i j x y : i < j -> (done ++ next) !! i = Some x -> (done ++ next) !! j = Some y -> lv x <= lv y;
    b_head n next' : next = n :: next' -> forall x, x ∈ done ++ next -> lv x <= S (lv n);
    b_sinks x y : x ∈ done -> y ∈ sinks g x -> y ∈ done ++ next /\ lv y <= S (lv x)
  }.

  Lemma bfs_ok fuel : forall done next vis lv, NoDup (done ++ next) -> (forall x, x ∈ vis <-> x ∈ done ++ next) -> binv done next lv ->
    left_over g vis + length next <= fuel ->
    exists l lv', bfs_loop fuel g next (done ++ next) vis = Some (done ++ l) /\ NoDup (done ++ l) /\ (forall x, x ∈ done ++ next -> x ∈ done ++ l) /\
      binv (done ++ l) [] lv' /\ exists k, l = next ++ k.
  Proof.
    induction fuel as [|fuel IH]; intros done next vis lv Hn Hv Hb Hf.
    - destruct next as [|n next]; [|simpl in Hf; lia]. exists [], lv. cbn [bfs_loop]. rewrite !app_nil_r in *. split; [reflexivity|].
      split; [exact Hn|]. split; [intros x Hx; exact Hx|]. split; [exact Hb|]. exists []. reflexivity.
    - destruct next as [|n next].
      + exists [], lv. cbn [bfs_loop]. rewrite !app_nil_r in *. split; [reflexivity|].
        split; [exact Hn|]. split; [intros x Hx; exact Hx|]. split; [exact Hb|]. exists []. reflexivity.
      + cbn [bfs_loop]. destruct (expand_ok (sinks g n) (sinks_nodes n) next (done ++ n :: next) vis Hn Hv) as (new & vis' & E & A & B & C & D & F).
        rewrite E.
        set (lv' := fun z => if decide (z ∈ new) then S (lv n) else lv z).
        assert (Hassoc : (done ++ n :: next) ++ new = (done ++ [n]) ++ (next ++ new)) by (rewrite <- !app_assoc; reflexivity).
        assert (Hnin : n ∈ done ++ n :: next) by (apply elem_of_app; right; left).
        assert (Hold : forall x, x ∈ done ++ n :: next -> lv' x = lv x).
        { intros x Hx. unfold lv'. destruct (decide (x ∈ new)) as [Hnew|]; [|reflexivity]. exfalso.
          apply NoDup_app in A as (_ & A & _). exact (A x Hx Hnew). }
        assert (Hnewlv : forall x, x ∈ new -> lv' x = S (lv n)).
        { intros x Hx. unfold lv'. destruct (decide (x ∈ new)); [reflexivity|contradiction]. }
        assert (Hle : forall x, x ∈ (done ++ n :: next) ++ new -> lv' x <= S (lv n)).
        { intros x Hx. apply elem_of_app in Hx as [Hx|Hx]; [rewrite (Hold x Hx); exact (b_head _ _ _ Hb n next eq_refl x Hx)|rewrite (Hnewlv x Hx); lia]. }
        assert (Hb' : binv (done ++ [n]) (next ++ new) lv').
        { split.
          - destruct (b_entry _ _ _ Hb) as [H1 H2]. rewrite <- Hassoc, (Hold _ H1). split; [apply elem_of_app; left; exact H1|exact H2].
          - intros x Hx. rewrite <- Hassoc in Hx. apply elem_of_app in Hx as [Hx|Hx].
            + rewrite (Hold x Hx). exact (b_path _ _ _ Hb x Hx).
            + rewrite (Hnewlv x Hx). eapply path_edge; [exact (b_path _ _ _ Hb n Hnin)|]. exact (C x Hx).
          - intros i j x y Hij Hx Hy. rewrite <- Hassoc in Hx, Hy.
            apply lookup_app_Some in Hy as [Hy|[Hj Hy]].
            + assert (Hlt : j < length (done ++ n :: next)) by (eapply lookup_lt_Some; exact Hy).
              rewrite lookup_app_l in Hx by lia.
              rewrite (Hold x), (Hold y) by (eapply elem_of_list_lookup_2; eassumption).
              exact (b_sorted _ _ _ Hb i j x y Hij Hx Hy).
            + rewrite (Hnewlv y) by (eapply elem_of_list_lookup_2; exact Hy). apply Hle. eapply elem_of_list_lookup_2. exact Hx.
          - intros n2 next2 Heq x Hx. rewrite <- Hassoc in Hx.
            assert (Hge : lv n <= lv' n2).
            { assert (Hlk : ((done ++ n :: next) ++ new) !! (length done) = Some n).
              { rewrite <- app_assoc, lookup_app_r by lia. rewrite Nat.sub_diag. reflexivity. }
              assert (Hlk2 : ((done ++ n :: next) ++ new) !! (S (length done)) = Some n2).
              { rewrite <- app_assoc, lookup_app_r by lia. replace (S (length done) - length done) with 1 by lia.
                cbn [app]. rewrite Heq. reflexivity. }
              apply lookup_app_Some in Hlk2 as [Hlk2|[Hj Hlk2]].
              - rewrite (Hold n2) by (eapply elem_of_list_lookup_2; exact Hlk2).
                rewrite lookup_app_l in Hlk by (rewrite app_length; simpl; lia).
                eapply (b_sorted _ _ _ Hb (length done) (S (length done))); [lia|exact Hlk|exact Hlk2].
              - rewrite (Hnewlv n2) by (eapply elem_of_list_lookup_2; exact Hlk2). lia. }
            pose proof (Hle x Hx). lia.
          - intros x y Hx Hy. rewrite <- Hassoc. apply elem_of_app in Hx as [Hx|Hx].
            + destruct (b_sinks _ _ _ Hb x y Hx Hy) as [H1 H2]. split; [apply elem_of_app; left; exact H1|].
              rewrite (Hold y H1), (Hold x) by (apply elem_of_app; left; exact Hx). exact H2.
            + apply elem_of_list_singleton in Hx as ->. split; [exact (D y Hy)|].
              rewrite (Hold n Hnin). apply Hle. exact (D y Hy). }
        rewrite Hassoc in A.
        assert (Hv2 : forall x, x ∈ vis' <-> x ∈ (done ++ [n]) ++ next ++ new) by (intros x; rewrite <- Hassoc; apply B).
        destruct (IH (done ++ [n]) (next ++ new) vis' lv' A Hv2 Hb') as (l & lv2 & E2 & N2 & I2 & B2 & k & K2).
        { rewrite app_length. simpl in Hf. lia. }
        rewrite Hassoc, E2. exists (n :: l), lv2.
        assert (Hl : (done ++ [n]) ++ l = done ++ n :: l) by (rewrite <- app_assoc; reflexivity).
        rewrite Hl in *. split; [reflexivity|]. split; [exact N2|]. split.
        * intros x Hx. apply I2. rewrite <- Hassoc. apply elem_of_app. left. exact Hx.
        * split; [exact B2|]. exists (new ++ k). rewrite K2. cbn [app]. rewrite <- app_assoc. reflexivity.
  Qed.

  Lemma breadth_first_ok : exists l lv, breadth_first g = Some (entry :: l) /\ NoDup (entry :: l) /\ binv (entry :: l) [] lv.
  Proof.
    unfold breadth_first.
    destruct (bfs_ok (length (nodes g)) [] [entry] {[entry]} (fun _ => 0)) as (l & lv & E & N & I & B & k & ->).
    - apply NoDup_singleton.
    - intros x. cbn [app]. rewrite elem_of_list_singleton, elem_of_singleton. reflexivity.
    - split.
      + split; [left|reflexivity].
      + intros x Hx. apply elem_of_list_singleton in Hx as ->. apply path_nil.
      + intros; lia.
      + intros; lia.
      + intros x y Hx. apply elem_of_nil in Hx. destruct Hx.
    - assert (H1 : left_over g {[entry]} <= size (list_to_set (exit :: (map_to_list (blocks g)).*1) : gset nat)).
      { unfold left_over. apply subseteq_size. intros x Hx. apply elem_of_difference in Hx as [Hx Hx'].
        unfold nodes in Hx. rewrite elem_of_list_to_set in Hx |- *. apply elem_of_cons in Hx as [->|Hx]; [|exact Hx].
        exfalso. apply Hx', elem_of_singleton. reflexivity. }
      pose proof (size_le (exit :: (map_to_list (blocks g)).*1)) as H2. unfold nodes. simpl in *. lia.
    - cbn [app] in *. exists k, lv. split; [exact E|]. split; [exact N|exact B].
  Qed.

  Theorem breadth_first_total : is_Some (breadth_first g).
  Proof. destruct breadth_first_ok as (l & lv & E & _). rewrite E. eauto. Qed.

  (* the entry first, every reachable node once, and no node before one that
     is closer to the entry *)
  Theorem breadth_first_correct l : breadth_first g = Some l ->
    head l = Some entry /\ NoDup l /\ (forall x, x ∈ l <-> reaches g entry x) /\
    (forall x y, before l x y -> forall k, path g entry k y -> exists k', k' <= k /\ path g entry k' x).
  Proof.
    intros H. destruct breadth_first_ok as (k & lv & E & N & B). rewrite E in H. injection H as <-.
    assert (Hlev : forall j y, path g entry j y -> y ∈ entry :: k /\ lv y <= j).
    { induction 1 as [|j v w Hp [IH1 IH2] Hw].
      - split; [left|]. rewrite (proj2 (b_entry _ _ _ B)). lia.
      - destruct (b_sinks _ _ _ B v w IH1 Hw) as [H1 H2]. rewrite app_nil_r in H1. split; [exact H1|lia]. }
    split; [reflexivity|]. split; [exact N|]. split.
    - intros x. split.
      + intros Hx. exists (lv x). apply (b_path _ _ _ B). rewrite app_nil_r. exact Hx.
      + intros [j Hj]. exact (proj1 (Hlev j x Hj)).
    - intros x y (i & j & Hij & Hx & Hy) m Hm. exists (lv x). split.
      + etransitivity; [|exact (proj2 (Hlev m y Hm))]. eapply (b_sorted _ _ _ B); rewrite ?app_nil_r; eassumption.
      + apply (b_path _ _ _ B). rewrite app_nil_r. eapply elem_of_list_lookup_2. exact Hx.
  Qed.
End Bfs.
