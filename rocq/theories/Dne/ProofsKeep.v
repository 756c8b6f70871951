(** What is needed is kept. *)
From stdpp Require Import base list list_numbers fin_sets gmap relations.
From Verif.Rvsdg Require Import Model Spec Sem Wf WfFacts ListFacts Det.
From Verif.Dne Require Import Model Spec ProofsMark Rel ProofsList ProofsNode ProofsIds ProofsShrink ProofsAlive.

Lemma theta_out :
  (forall n, wf_node n -> forall a out inp, (a, VThetaArg out inp) ∈ ndefs n -> exists p y x l, (out, VTheta p y x l) ∈ ndefs n) /\
  (forall r, wf_region r -> forall a out inp, (a, VThetaArg out inp) ∈ rdefs r -> exists p y x l, (out, VTheta p y x l) ∈ rdefs r).
Proof.
  apply tree_ind.
  - intros id k ins outs subs IH [Hsh Hw]%wf_node_unfold a out inp H. apply ndefs_unfold in H as [H|(r & Hr & [H|H])].
    + apply elem_of_index in H as (i & _ & H). destruct k; discriminate.
    + apply elem_of_index in H as (i & Hi & H). destruct k; cbn [arg_view] in H; repeat case_decide; try discriminate. injection H as -> ->.
      destruct Hsh as (r0 & -> & H1 & H2 & H3). apply elem_of_list_singleton in Hr as ->. apply lookup_lt_Some in Hi. destruct (lookup_lt_is_Some_2 outs i) as [o Ho]; [lia|].
      do 4 eexists. apply ndefs_unfold. left. apply elem_of_index. exists i. rewrite (nth_elem _ _ _ _ Ho). split; [done|]. cbn [out_view]. done.
    + rewrite Forall_forall in IH, Hw. destruct (IH r Hr (Hw r Hr) _ _ _ H) as (p & y & x & l & ?). exists p, y, x, l. apply ndefs_unfold. eauto.
  - intros args res ns IH [Hw _] a out inp (n & Hn & H)%rdefs_unfold. apply wf_list_Forall in Hw. rewrite Forall_forall in IH, Hw.
    destruct (IH n Hn (Hw n Hn) _ _ _ H) as (p & y & x & l & ?). exists p, y, x, l. apply rdefs_unfold. eauto.
Qed.

Section Keep.
  Context (t : region) (c : ctx) (t' : region).
  Context (Hwf : wf_region t) (Hnd : NoDup (defs t).*1) (Hcl : closed t c) (Hwf' : wf_region t').
  Context (Hres : Forall2 (rsl t c) (rres t) (rres t')).
  Context (Hsim : forall o w', (o, w') ∈ defs t' -> exists w, (o, w) ∈ defs t /\ vrel t c w w').
  Local Notation liveo := (liveo t c).
  Local Notation edge := (edge t c).
  Local Notation byp := (byp t c).
  Local Notation rsl := (rsl t c).

  Lemma edge_fun x y z : edge x y -> edge x z -> y = z.
  Proof using Hnd. clear -Hnd. intros (i & op & k & ins & H1 & _ & H2) (i' & op' & k' & ins' & H1' & _ & H2'). pose proof (defs_fun _ _ _ _ Hnd H1 H1') as [= <- <- <- <-]. congruence. Qed.
  Lemma rsl_fun x y z : rsl x y -> rsl x z -> y = z.
  Proof using Hnd.
    clear -Hnd. intros (_ & Hy & Hby) (_ & Hz & Hbz). revert z Hz Hbz. induction Hy as [x|x x1 y H1 Hy IH]; intros z Hz Hbz.
    - inversion Hz as [|? x1 ? H1]; subst; [done|]. destruct Hby. destruct H1 as (i & op & k & ins & Hq & Hn & _). exists i, op, k, ins. done.
    - inversion Hz as [|? x2 ? H2 Hz2]; subst.
      + destruct Hbz. destruct H1 as (i & op & k & ins & Hq & Hn & _). exists i, op, k, ins. done.
      + pose proof (edge_fun _ _ _ H1 H2) as <-. by apply IH.
  Qed.
  Lemma uses_refs w x : x ∈ uses w -> x ∈ refs w.
  Proof using.
    clear. destruct w as [id l op k ins | p brs | | | | | | | |]; cbn [uses refs]; try done.
    - destruct l; [|done]. destruct k; [done|]. intros H. destruct (ins !! S k) as [y|] eqn:E; [|by apply elem_of_nil in H]. apply elem_of_list_singleton in H as ->. by eapply elem_of_list_lookup_2.
    - rewrite !elem_of_cons. intros [?|H]; [auto|]. right. apply elem_of_list_In, in_map_iff in H as ([[y cc] es] & <- & H%elem_of_list_In). apply elem_of_mjoin_map. exists (y, cc, es). split; [done | left].
    - rewrite !elem_of_cons. intros [?|[?|[?|?%elem_of_nil]]]; auto; done.
  Qed.
  Lemma delta_one :
    (forall n, wf_node n -> forall a id res, (a, VDelta id res) ∈ ndefs n -> length res = 1) /\
    (forall r, wf_region r -> forall a id res, (a, VDelta id res) ∈ rdefs r -> length res = 1).
  Proof using.
    clear. apply tree_ind.
    - intros id k ins outs subs IH [Hsh Hw]%wf_node_unfold a id' res H. apply ndefs_unfold in H as [H|(r & Hr & [H|H])].
      + apply elem_of_index in H as (i & _ & H). destruct k; try discriminate. cbn [out_view] in H. injection H as -> ->. destruct Hsh as (r0 & -> & _ & H1 & _). done.
      + apply elem_of_index in H as (i & Hi & H). destruct k; cbn [arg_view] in H; repeat case_decide; discriminate.
      + rewrite Forall_forall in IH, Hw. eapply IH; eauto.
    - intros args res ns IH [Hw _] a id' res' (n & Hn & H)%rdefs_unfold. apply wf_list_Forall in Hw. rewrite Forall_forall in IH, Hw. eapply IH; eauto.
  Qed.
  Lemma defs_import a w : (a, w) ∈ defs t -> w = VImport a \/ (a, w) ∈ rdefs t.
  Proof using. clear. unfold defs. intros [H|H]%elem_of_app; [|auto]. apply elem_of_list_In, in_map_iff in H as (? & [= -> <-] & _). auto. Qed.
  Lemma needed_live o : needed t o -> liveo o.
  Proof using Hwf Hnd Hcl Hres.
    clear Hsim Hwf'. assert (Hkeys : forall o w x, (o, w) ∈ defs t -> x ∈ refs w -> x ∈ (defs t).*1) by (intros; by eapply wf_refs).
    induction 1 as [o Ho|o w d Ho IH Hw Hd].
    - apply elem_of_list_lookup in Ho as [i Hi]. destruct (Forall2_lookup_l _ _ _ _ _ Hres Hi) as (o' & _ & (H & _)). done.
    - apply (lv_liveo t c Hnd); [eapply Hkeys; [exact Hw | by apply uses_refs]|]. pose proof (live_unique t c Hnd _ _ Hw IH) as Hl. pose proof (Hcl _ _ Hw) as Hc.
      assert (Hsame : is_simple w = false -> d ∈ mark_next w -> lv t c d).
      { intros Hsw Hm. destruct w; try discriminate; specialize (Hc Hl); rewrite Forall_forall in Hc; by apply Hc. }
      destruct w as [id l op k ins | p brs | x | p y x l | x y | id a r | | id r | x | id]; try (apply Hsame; [done | exact Hd]).
      + destruct Hc as [Hc1 Hc2]. destruct Hl as [Hl|(-> & Hk & Hl)].
        * specialize (Hc1 Hl). rewrite Forall_forall in Hc1. apply Hc1. cbn [uses] in Hd. destruct l; [|done]. destruct k; [done|].
          destruct (ins !! S k) as [z|] eqn:E; [|by apply elem_of_nil in Hd]. apply elem_of_list_singleton in Hd as ->. by eapply elem_of_list_lookup_2.
        * cbn [uses] in Hd. destruct k; [done|]. destruct (ins !! S k) as [z|] eqn:E; [|by apply elem_of_nil in Hd]. apply elem_of_list_singleton in Hd as ->. by eapply Hc2.
      + apply Hsame; [done|]. cbn [uses mark_next] in *. rewrite elem_of_cons in *. destruct Hd as [?|Hd]; [auto|]. right. apply elem_of_list_In, in_map_iff in Hd as ([[y cc] es] & <- & H%elem_of_list_In).
        apply elem_of_list_fmap. exists (y, cc). split; [done|]. apply elem_of_list_fmap. exists (y, cc, es). done.
      + apply Hsame; [done|]. cbn [uses mark_next] in *. destruct (defs_import _ _ Hw) as [?|Hw']; [discriminate|]. pose proof (proj2 delta_one t Hwf _ _ _ Hw') as H1. destruct r as [|z [|]]; try done.
  Qed.
  Lemma vrel_uses w w' d : vrel t c w w' -> d ∈ uses w -> (exists d', rsl d d' /\ d' ∈ refs w') \/ (exists out inp, w = VThetaArg out inp /\ d = out /\ d ∈ refs w').
  Proof using.
    clear. intros Hv Hd.
    assert (Hlist : forall (l l' : list nat), Forall2 rsl l l' -> forall x, x ∈ l -> exists x', rsl x x' /\ x' ∈ l').
    { intros l l' Hl x [i Hi]%elem_of_list_lookup. destruct (Forall2_lookup_l _ _ _ _ _ Hl Hi) as (x' & Hx' & ?). exists x'. split; [done|]. by eapply elem_of_list_lookup_2. }
    destruct Hv as [id l op k ins ins' Hins | p p' brs brs' Hp Hb | x x' Hx | p p' y y' x x' l l' Hp Hy Hx Hl | o0 x x' Hx | id a r r' Hr | | id r r' Hr | x x' Hx | id].
    - left. assert (Hd' : d ∈ ins).
      { cbn [uses] in Hd. destruct l; [|done]. destruct k; [done|]. destruct (ins !! S k) as [z|] eqn:E; [|by apply elem_of_nil in Hd]. apply elem_of_list_singleton in Hd as ->. by eapply elem_of_list_lookup_2. }
      cbn [refs]. by apply (Hlist ins ins').
    - left. cbn [uses] in Hd. cbn [refs]. rewrite elem_of_cons in Hd. destruct Hd as [->|Hd]; [exists p'; split; [done | left]|].
      apply elem_of_list_In, in_map_iff in Hd as ([[y cc] es] & <- & H%elem_of_list_In). apply elem_of_list_lookup in H as [i Hi]. destruct (Forall2_lookup_l _ _ _ _ _ Hb Hi) as ([[y' cc'] es'] & Hi' & (H1 & _ & _)).
      cbn in H1. exists y'. split; [done|]. right. apply elem_of_mjoin_map. exists (y', cc', es'). split; [by eapply elem_of_list_lookup_2 | left].
    - left. cbn [uses] in Hd. apply elem_of_list_singleton in Hd as ->. exists x'. split; [done | left].
    - left. cbn [uses] in Hd. cbn [refs]. rewrite !elem_of_cons in Hd. destruct Hd as [->|[->|[->|?%elem_of_nil]]]; [exists p' | exists y' | exists x' | done]; (split; [done|]); rewrite !elem_of_cons; auto.
    - cbn [uses] in Hd. cbn [refs]. rewrite !elem_of_cons in Hd. destruct Hd as [->|[->|?%elem_of_nil]]; [|left; exists x'; split; [done | right; left] | done].
      right. exists o0, x. split; [done|]. split; [done | left].
    - left. cbn [uses refs] in *. by apply (Hlist r r').
    - by apply elem_of_nil in Hd.
    - left. cbn [uses refs] in *. by apply (Hlist r r').
    - left. cbn [uses] in Hd. apply elem_of_list_singleton in Hd as ->. exists x'. split; [done | left].
    - by apply elem_of_nil in Hd.
  Qed.
  Lemma needed_kept o : needed t o -> forall o', rsl o o' -> o' ∈ (defs t').*1.
  Proof using Hwf Hnd Hcl Hres Hsim Hwf'.
    induction 1 as [o Ho|o w d Ho IH Hw Hd]; intros o' Hr.
    - apply elem_of_list_lookup in Ho as [i Hi]. destruct (Forall2_lookup_l _ _ _ _ _ Hres Hi) as (o'' & Hi' & H). pose proof (rsl_fun _ _ _ Hr H) as ->.
      apply (wf_res t'); [done|]. by eapply elem_of_list_lookup_2.
    - pose proof (needed_live o Ho) as Hlo.
      assert (Hdec : (exists x, edge o x /\ d = x) \/ ~ byp o).
      { destruct w as [id l op k ins | | | | | | | | |]; try (right; by eapply (nonsimple_not_byp t c Hnd); [exact Hw|]).
        destruct (decide (id ∈ cnodes c)) as [Hi|Hi].
        - right. intros (i & op' & k' & ins' & H & Hn). pose proof (defs_fun _ _ _ _ Hnd Hw H) as [= <- ? ? ? ?]. done.
        - destruct l.
          + destruct k as [|k].
            * right. intros (i & op' & k' & ins' & H & Hn). pose proof (defs_fun _ _ _ _ Hnd Hw H). discriminate.
            * left. cbn [uses] in Hd. destruct (ins !! S k) as [z|] eqn:E; [|by apply elem_of_nil in Hd]. apply elem_of_list_singleton in Hd as ->. exists z. split; [|done]. exists id, op, k, ins. done.
          + right. intros (i & op' & k' & ins' & H & Hn). pose proof (defs_fun _ _ _ _ Hnd Hw H). discriminate. }
      destruct Hdec as [(x & Hx & ->)|Hnb].
      + apply IH. destruct Hr as (_ & H1 & H2). split; [done|]. split; [by eapply rtc_l | done].
      + assert (Hk : o ∈ (defs t').*1). { apply IH. split; [done|]. split; [constructor | done]. }
        apply elem_of_fst in Hk as [w' Hw']. destruct (Hsim _ _ Hw') as (w0 & Hw0 & Hv). pose proof (defs_fun _ _ _ _ Hnd Hw Hw0) as <-.
        destruct (vrel_uses w w' d Hv Hd) as [(d' & Hdd & Hin)|(out & inp & -> & -> & Hin)].
        * pose proof (rsl_fun _ _ _ Hr Hdd) as ->. by eapply wf_refs.
        * destruct (defs_import _ _ Hw) as [?|Hw1]; [discriminate|]. destruct (proj2 theta_out t Hwf _ _ _ Hw1) as (p & y & x & l & Ho2).
          assert (Ho3 : (out, VTheta p y x l) ∈ defs t) by (unfold defs; apply elem_of_app; by right).
          pose proof (nonsimple_not_byp t c Hnd _ _ Ho3 eq_refl) as Hnb2.
          assert (o' = out) as ->; [|by eapply wf_refs].
          destruct Hr as (_ & H1 & _). inversion H1 as [|? x1 ? H2]; subst; [done|]. destruct Hnb2. destruct H2 as (i & op & k & ins & Hq & Hn & _). exists i, op, k, ins. done.
  Qed.
End Keep.
