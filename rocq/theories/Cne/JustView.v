(** What is justified node by node is justified for every equation. *)
From stdpp Require Import base list list_numbers fin_sets gmap.
From Verif.Rvsdg Require Import Model Spec Sem Wf WfFacts Args Divert Local.
From Verif.Dne Require Import Model.
From Verif.Ivr Require Import Model.
From Verif.Cne Require Import Model Spec ProofsSem Just.

Lemma jlist_elem f pre ns n : jlist f pre ns -> n ∈ ns -> exists a b, ns = a ++ n :: b /\ f (pre ++ a) n.
Proof.
  revert pre. induction ns as [|m ns IH]; intros pre; [by intros _ ?%elem_of_nil|]. cbn [jlist]. intros [H1 H2] [->|Hn]%elem_of_cons.
  - exists [], ns. rewrite app_nil_r. done.
  - destruct (IH _ H2 Hn) as (a & b & -> & Hf). exists (m :: a), b. rewrite <-app_assoc in Hf. done.
Qed.
Lemma lookup_zip {A B} (l : list A) (k : list B) i a b : l !! i = Some a -> k !! i = Some b -> zip l k !! i = Some (a, b).
Proof. intros H1 H2. apply lookup_zip_with_Some. eauto. Qed.
Lemma elem_zip_inv {A B} (l : list A) (k : list B) a b : (a, b) ∈ zip l k -> exists i, l !! i = Some a /\ k !! i = Some b.
Proof. intros [i Hi]%elem_of_list_lookup. apply lookup_zip_with_Some in Hi as (? & ? & [= <- <-] & ? & ?). eauto. Qed.
Lemma loop_vars_lookup ins r i a x y : rargs r !! i = Some a -> ins !! i = Some x -> rres r !! S i = Some y -> (a, x, y) ∈ loop_vars ins r.
Proof. intros H1 H2 H3. unfold loop_vars. apply elem_of_list_lookup. exists i. apply lookup_zip; [by apply lookup_zip | by rewrite lookup_tail]. Qed.
Lemma loop_vars_inv ins r a x y : (a, x, y) ∈ loop_vars ins r -> exists i, rargs r !! i = Some a /\ ins !! i = Some x /\ rres r !! S i = Some y.
Proof. unfold loop_vars. intros (i & H1 & H2)%elem_zip_inv. apply lookup_zip_with_Some in H1 as (? & ? & [= <- <-] & ? & ?). rewrite lookup_tail in H2. eauto. Qed.
Lemma lookup_nth (l : list nat) i d : i < length l -> l !! i = Some (nth i l d).
Proof. intros H. destruct (lookup_lt_is_Some_2 l i H) as [x Hx]. by rewrite (nth_elem _ _ _ _ Hx). Qed.

Section View.
  Context (t : region) (s : oid -> oid) (Hwf : wf_region t) (Hid : forall x, s (s x) = s x) (Himp : forall a, a ∈ rargs t -> s a = a) (HJ : jregion s t).
  Local Notation D := (fun d : oid * view => d ∈ defs t).
  Lemma jreg r : reg t r -> jregion s r \/ ((forall x, x ∈ subkeys r -> s x = x) /\ Forall (fun n => exists op, nkind n = Simple op) (rnodes r)).
  Proof using Hwf HJ.
    clear -Hwf HJ. induction 1 as [|r n r' Hr IH Hn Hr']; [by left|]. pose proof (reg_wf _ _ Hwf Hr) as Hwr. pose proof (wf_region_node _ _ Hwr Hn) as Hwn. destruct IH as [IH|[_ IH]].
    - destruct r as [args res ns]. apply jregion_unfold in IH. cbn [rnodes] in Hn. destruct (jlist_elem _ _ _ _ IH Hn) as (a & b & E & Hj). destruct n as [id k ins outs subs]. cbn [nsubs] in Hr'. apply wf_node_unfold in Hwn as [Hsh _].
      assert (Hc : fold_right and True (map (jregion s) subs) -> jregion s r') by (rewrite fold_and, Forall_forall; auto).
      destruct k; cbn [jnode shape] in *; try (left; by apply Hc, Hj).
      + subst subs. by apply elem_of_nil in Hr'.
      + destruct Hsh as [-> _]. by apply elem_of_nil in Hr'.
      + right. destruct Hsh as (rb & -> & _ & _ & _ & Hf). apply elem_of_list_singleton in Hr' as ->. split; [|done]. intros x Hx. apply Hj. eapply subkeys_nkeys; [left | exact Hx].
    - rewrite Forall_forall in IH. destruct (IH n Hn) as [op Hk]. destruct n as [id k ins outs subs]. cbn in Hk, Hr'. subst k. apply wf_node_unfold in Hwn as [Hsh _]. cbn in Hsh. subst. by apply elem_of_nil in Hr'.
  Qed.
  Lemma just_out r n i o : reg t r -> n ∈ rnodes r -> nouts n !! i = Some o ->
    just D s o (out_view (nid n) (nkind n) (nins n) (nouts n) (nsubs n) i) /\ args_cong s (out_view (nid n) (nkind n) (nins n) (nouts n) (nsubs n) i).
  Proof using Hwf Hid HJ.
    clear Himp. intros Hr Hn Hi. pose proof (reg_wf _ _ Hwf Hr) as Hwr. pose proof (wf_region_node _ _ Hwr Hn) as Hwn. pose proof (fun j o' => node_out_def t r n j o' Hr Hn) as Hdef. pose proof (lookup_lt_Some _ _ _ Hi) as Hlt.
    destruct (jreg r Hr) as [IH|[IH1 IH2]].
    - destruct r as [args res ns]. apply jregion_unfold in IH. cbn [rnodes] in Hn. destruct (jlist_elem _ _ _ _ IH Hn) as (a & b & E & Hj). rewrite app_nil_l in Hj.
      destruct n as [id k ins outs subs]. cbn [nid nkind nins nouts nsubs] in *. apply wf_node_unfold in Hwn as [Hsh Hws].
      assert (Hsimp : forall m, m ∈ a -> nouts m !! i = Some (s o) -> (s o, out_view (nid m) (nkind m) (nins m) (nouts m) (nsubs m) i) ∈ defs t).
      { intros m Hm Ho. eapply node_out_def; [exact Hr| |done]. cbn [rnodes]. rewrite E. apply elem_of_app. by left. }
      destruct k; cbn [jnode shape out_view args_cong] in *.
      + split; [|done]. destruct (Hj i o Hi) as [He|(m & Hm & H1 & H2 & H3)]; [by apply j_self|]. pose proof (Hsimp m Hm H2) as Hd. destruct m as [id' k' ins' outs' subs']. cbn in H1, H3, Hd. destruct k'; try done. apply bool_decide_eq_true in H1. subst. eapply j_simple; [exact Hd | exact H3].
      + split; [|done]. destruct (Hj i o Hi) as [He|(m & Hm & H1 & H2 & H3)]; [by apply j_self|]. pose proof (Hsimp m Hm H2) as Hd. destruct m as [id' k' ins' outs' subs']. cbn in H1, H3, Hd. destruct k'; try done. apply bool_decide_eq_true in H1. subst. eapply j_simple; [exact Hd | exact H3].
      + destruct Hj as [[_ Ha] He]. destruct Hsh as [Hne Hsh]. rewrite Forall_forall in Hsh, Ha. split.
        * destruct (He i o Hi) as [Hs|[(k' & Hk' & Hs)|(_ & _ & _ & Hs)]]; [by apply j_self| |].
          -- pose proof (Hdef k' _ Hk') as Hd. cbn [out_view] in Hd. eapply j_exit; [exact Hd|]. apply Forall2_fmap, Forall_Forall2_diag, Forall_forall. intros rb Hrb. cbn. split; [done|]. split; [done|].
             destruct (Hs rb Hrb) as (x & y & Hx & Hy & Hxy). rewrite (nth_elem _ _ _ _ Hx), (nth_elem _ _ _ _ Hy). done.
          -- apply j_exit_inv. intros x c es Hin. apply elem_of_list_fmap in Hin as (rb & Hb & Hrb). unfold gamma_branch in Hb. injection Hb as -> -> ->.
             destruct (Hs rb Hrb) as (x & j & z & Hx & Haj & Hz & Hzo). rewrite (nth_elem _ _ _ _ Hx). exists z. split; [|done]. destruct j as [|j]; [done|]. cbn in Hz. apply elem_of_list_lookup. exists j. apply lookup_zip; by rewrite lookup_tail.
        * intros x c es Hin. apply elem_of_list_fmap in Hin as (rb & Hb & Hrb). unfold gamma_branch in Hb. injection Hb as -> -> ->. destruct (Hsh rb Hrb) as [Hl _]. split.
          -- assert (H0 : rargs rb !! 0 = Some (nth 0 (rargs rb) 0)) by (apply lookup_nth; destruct ins; [done | cbn in Hl; lia]). destruct (Ha rb Hrb 0 _ H0) as (j & Hj & ->). rewrite H0 in Hj. by injection Hj.
          -- intros a' y Hay. apply elem_zip_inv in Hay as (j & H1 & H2). rewrite lookup_tail in H1, H2. destruct (Ha rb Hrb _ _ H1) as (j' & Hj' & Hm). cbn [arg_origin] in Hm. rewrite H2 in Hm. destruct Hm as (y' & Hy' & Hyy). destruct j' as [|j']; [done|].
             exists y'. split; [|done]. apply elem_of_list_lookup. exists j'. apply lookup_zip; by rewrite lookup_tail.
      + destruct Hsh as (rb & -> & Hl1 & Hl2 & Hl3). cbn [nth] in *. destruct Hj as [[_ Ha] [Hp Ho]]. rewrite Forall_forall in Ha. specialize (Ha rb ltac:(left)). split.
        * assert (Hx : rres rb !! S i = Some (nth (S i) (rres rb) 0)) by (apply lookup_nth; lia). destruct (Ho i o _ Hi Hx) as [Hs|[(j & y & Hj & Hy & Hs)|(j & z & (y & Hj & Hy & Hs) & Hz & Hzo)]]; [by apply j_self| |].
          -- pose proof (Hdef j _ Hj) as Hd. cbn [out_view nth] in Hd. eapply j_theta; [exact Hd|]. by rewrite (nth_elem _ (S j) _ _ Hy).
          -- eapply j_theta_inv; [by eapply loop_vars_lookup | done | done | done].
        * intros a' x y (j & H1 & H2 & H3)%loop_vars_inv. destruct (Ha _ _ H1) as (j' & Hj' & Hm). cbn [arg_origin] in Hm. rewrite H2 in Hm. destruct Hm as (x' & Hx' & Hxx).
          assert (Hy' : rres rb !! S j' = Some (nth (S j') (rres rb) 0)) by (apply lookup_nth; apply lookup_lt_Some in Hj'; lia). exists x', (nth (S j') (rres rb) 0). split; [by eapply loop_vars_lookup|]. split; [done|].
          eapply Hp; [exact H1 | exact Hj' | by rewrite Hid | done | done].
      + split; [|done]. apply j_self. apply Hj. by eapply elem_of_list_lookup_2.
      + split; [|done]. apply j_self. apply Hj. by eapply elem_of_list_lookup_2.
      + split; [|done]. apply j_self. apply Hj. apply (nouts_nkeys (Node id Delta ins outs subs)). by eapply elem_of_list_lookup_2.
    - assert (Hs : s o = o). { apply IH1. unfold subkeys. apply elem_of_app. right. apply own_rkeys. apply elem_of_own. exists n. split; [done | by eapply elem_of_list_lookup_2]. }
      rewrite Forall_forall in IH2. destruct (IH2 n Hn) as [op Hk]. rewrite Hk. split; [by apply j_self | done].
  Qed.
  Lemma just_arg r n r' i a : reg t r -> n ∈ rnodes r -> r' ∈ nsubs n -> rargs r' !! i = Some a ->
    just D s a (arg_view (nkind n) (nins n) (nouts n) r' i) /\ args_cong s (arg_view (nkind n) (nins n) (nouts n) r' i).
  Proof using Hwf HJ.
    clear Himp Hid. intros Hr Hn Hr' Hi. split; [|unfold arg_view; destruct (nkind n); repeat case_decide; done]. pose proof (reg_wf _ _ Hwf Hr) as Hwr. pose proof (wf_region_node _ _ Hwr Hn) as Hwn. pose proof (fun j o' => node_arg_def t r n r' j o' Hr Hn Hr') as Hdef.
    destruct (jreg r Hr) as [IH|[_ IH2]].
    2:{ rewrite Forall_forall in IH2. destruct (IH2 n Hn) as [op Hk]. destruct n as [id k ins outs subs]. cbn in Hk, Hr'. subst k. apply wf_node_unfold in Hwn as [Hsh _]. cbn in Hsh. subst. by apply elem_of_nil in Hr'. }
    destruct r as [args res ns]. apply jregion_unfold in IH. cbn [rnodes] in Hn. destruct (jlist_elem _ _ _ _ IH Hn) as (pre & b & E & Hj). rewrite app_nil_l in Hj. destruct n as [id k ins outs subs]. cbn [nid nkind nins nouts nsubs] in *.
    assert (Hself : k = Delta -> s a = a). { intros ->. cbn [jnode] in Hj. apply Hj. eapply subkeys_nkeys; [exact Hr'|]. unfold subkeys. apply elem_of_app. left. by eapply elem_of_list_lookup_2. }
    assert (Hargs : Forall (jargs s k ins) subs -> just D s a (arg_view k ins outs r' i)).
    { rewrite Forall_forall. intros Ha. destruct (Ha r' Hr' i a Hi) as (j & Hja & Hm). pose proof (Hdef j _ Hja) as Hd. destruct (arg_origin k ins r' i) as [x|] eqn:Ex.
      - destruct Hm as (y & Hy & Hxy). destruct k; cbn [arg_view] in *; try (eapply j_garg; exact Hd); try (eapply j_targ; exact Hd).
        + eapply j_copy; [exact Hd|]. cbn in Ex, Hy. by rewrite (nth_elem _ _ _ _ Ex), (nth_elem _ _ _ _ Hy).
        + eapply j_copy; [exact Hd|]. cbn in Ex, Hy. by rewrite (nth_elem _ _ _ _ Ex), (nth_elem _ _ _ _ Hy).
        + cbn [arg_origin] in Ex, Hy. case_decide; [done|]. case_decide; [done|]. eapply j_copy; [exact Hd|]. by rewrite (nth_elem _ _ _ _ Ex), (nth_elem _ _ _ _ Hy).
        + cbn [arg_origin] in Ex, Hy. case_decide; [done|]. case_decide; [done|]. eapply j_copy; [exact Hd|]. by rewrite (nth_elem _ _ _ _ Ex), (nth_elem _ _ _ _ Hy).
        + by apply j_self, Hself.
      - subst j. rewrite Hi in Hja. injection Hja as Hja. apply j_self. done. }
    destruct k; cbn [jnode] in Hj; try (apply Hargs, Hj); [| |by apply j_self, Hself]; apply wf_node_unfold in Hwn as [Hsh _]; cbn in Hsh; [subst subs | destruct Hsh as [-> _]]; by apply elem_of_nil in Hr'.
  Qed.
  Lemma just_all o w : (o, w) ∈ defs t -> just D s o w /\ args_cong s w.
  Proof using Hwf Hid Himp HJ.
    intros [[Ha ->]|(r & n & Hr & Hn & [(i & Hi & ->)|(r' & i & Hr' & Hi & ->)])]%defs_inv.
    - split; [|done]. apply j_self. auto.
    - by apply (just_out r).
    - by apply (just_arg r).
  Qed.
End View.
