(** The lambda node of a function. *)
From stdpp Require Import base list list_numbers fin_sets gmap.
From Verif.Rvsdg Require Import Model Spec Sem Wf WfFacts Args.
From Verif.Construct Require Import Model Spec ProofsSets ProofsSim ProofsWf ProofsTotal.

(** the variables of the entry *)
Lemma entry_spec undef outer vs m s ins cargs us m' s' : entry_vars undef outer vs m s = (ins, cargs, us, m', s') ->
  length ins = length cargs /\ (forall v, v ∉ vs -> m' !! v = m !! v) /\
  (forall v, v ∈ vs -> exists o, m' !! v = Some o /\
     ((exists j o', cargs !! j = Some o /\ ins !! j = Some o' /\ outer !! v = Some o') \/ (outer !! v = None /\ exists id, Node id (Simple (undef v)) [] [o] [] ∈ us))).
Proof.
  revert m s ins cargs us. induction vs as [|u vs IH]; intros m s ins cargs us; cbn [entry_vars].
  - intros [= <- <- <- <- <-]. split; [done|]. split; [done|]. by intros v ?%elem_of_nil.
  - destruct (outer !! u) as [o|] eqn:Eo.
    + destruct (entry_vars undef outer vs (<[u := s]> m) (S s)) as [[[[ins1 cargs1] us1] m1] s1] eqn:E1. intros [= <- <- <- <- <-]. destruct (IH _ _ _ _ _ E1) as (H1 & H2 & H3).
      split; [cbn; lia|]. split.
      * intros v [Hne Hv]%not_elem_of_cons. rewrite H2 by done. by rewrite lookup_insert_ne.
      * intros v Hv. destruct (decide (v ∈ vs)) as [Hv'|Hv'].
        -- destruct (H3 v Hv') as (x & Hx & [(j & o' & G1 & G2 & G3)|G]); exists x; (split; [done|]); [left; by exists (S j), o' | by right].
        -- apply elem_of_cons in Hv as [->|]; [|done]. exists s. split; [rewrite H2 by done; apply lookup_insert|]. left. by exists 0, o.
    + destruct (entry_vars undef outer vs (<[u := S s]> m) (S (S s))) as [[[[ins1 cargs1] us1] m1] s1] eqn:E1. intros [= <- <- <- <- <-]. destruct (IH _ _ _ _ _ E1) as (H1 & H2 & H3).
      split; [done|]. split.
      * intros v [Hne Hv]%not_elem_of_cons. rewrite H2 by done. by rewrite lookup_insert_ne.
      * intros v Hv. destruct (decide (v ∈ vs)) as [Hv'|Hv'].
        -- destruct (H3 v Hv') as (x & Hx & [G|(G & id & Hid)]); exists x; (split; [done|]); [by left | right]. split; [done|]. exists id. by right.
        -- apply elem_of_cons in Hv as [->|]; [|done]. exists (S s). split; [rewrite H2 by done; apply lookup_insert|]. right. split; [done|]. exists s. left.
Qed.
Lemma entry_wf undef outer vs m s ins cargs us m' s' av : entry_vars undef outer vs m s = (ins, cargs, us, m', s') -> good av m ->
  s <= s' /\ within s s' (cargs ++ keys us) /\ within s s' (ids us) /\ (forall av', wf_list wf_node av' us) /\ good (av ++ cargs ++ own us) m' /\ (forall x, x ∈ ins -> exists v, outer !! v = Some x).
Proof.
  revert m s ins cargs us av. induction vs as [|u vs IH]; intros m s ins cargs us av; cbn [entry_vars].
  - intros [= <- <- <- <- <-] Hg. split; [done|]. split; [apply within_nil|]. split; [apply within_nil|]. split; [done|]. split; [cbn; by rewrite app_nil_r|]. by intros x ?%elem_of_nil.
  - destruct (outer !! u) as [o|] eqn:Eo.
    + destruct (entry_vars undef outer vs (<[u := s]> m) (S s)) as [[[[ins1 cargs1] us1] m1] s1] eqn:E1. intros [= <- <- <- <- <-] Hg.
      destruct (IH _ _ _ _ _ (av ++ [s]) E1) as (H1 & H2 & H3 & H4 & H5 & H6). { apply (good_add _ m [u] [s]); [apply (good_sub av); [done|] | | done]; intros x Hx; apply elem_of_app; auto. }
      split; [lia|]. split; [cbn [app]; apply (within_cons s (S s)); [lia | lia | done]|]. split; [eapply within_mono; [| |exact H3]; lia|]. split; [done|]. split.
      * rewrite <-app_assoc in H5. exact H5.
      * intros x [->|Hx]%elem_of_cons; [by exists u | by apply H6].
    + destruct (entry_vars undef outer vs (<[u := S s]> m) (S (S s))) as [[[[ins1 cargs1] us1] m1] s1] eqn:E1. intros [= <- <- <- <- <-] Hg.
      destruct (IH _ _ _ _ _ (av ++ [S s]) E1) as (H1 & H2 & H3 & H4 & H5 & H6). { apply (good_add _ m [u] [S s]); [apply (good_sub av); [done|] | | done]; intros x Hx; apply elem_of_app; auto. }
      change (Node s (Simple (undef u)) [] [S s] [] :: us1) with ([Node s (Simple (undef u)) [] [S s] []] ++ us1). rewrite keys_app, ids_app, own_app, keys_one, ids_one, own_one. unfold rkeys, rids. cbn [map]. change (mjoin []) with (@nil nat).
      split; [lia|]. split; [|split; [|split; [|split]]].
      * destruct (within_cons s (S (S s)) s1 (S s) _ ltac:(lia) ltac:(lia) H2) as [G1 G2].
        assert (HP : Permutation (cargs1 ++ ([S s] ++ []) ++ keys us1) (S s :: cargs1 ++ keys us1)) by (cbn; by rewrite Permutation_middle).
        split; [by rewrite HP|]. intros x Hx. apply G2. by rewrite <-HP.
      * cbn [app]. apply (within_cons s (S (S s))); [lia | lia | done].
      * intros av'. apply wf_list_app. split; [|done]. cbn. split; [constructor|]. done.
      * apply (good_sub _ _ _ H5). intros x. rewrite !elem_of_app. tauto.
      * exact H6.
Qed.

Section Fun.
  Context (order : gset nat -> list nat) (undef : nat -> nat) (match1 : nat).
  Context (Horder : forall s, Permutation (order s) (elements s)).

  (** the module *)
  Lemma module_inv f imports M : convert_module order undef match1 f imports = Some M ->
    exists ins cargs us m s2 ns m' s3 res,
      let s := length imports in let k := length (fargs f) in
      entry_vars undef (add_all imports (seq 0 s) ∅) (order (annotate_function f).2) (add_all (fargs f) (seq (S (S s)) k) ∅) (S (S s) + k) = (ins, cargs, us, m, s2) /\
      convert_seq (convert order undef match1) None (annotate_function f).1 m s2 = Some (ns, m', s3) /\ mapM (fun v => m' !! v) (fresults f) = Some res /\
      M = Region (seq 0 s) [S s] [Node s (Lambda k) ins [S s] [Region (seq (S (S s)) k ++ cargs) res (us ++ ns)]].
  Proof using.
    unfold convert_module, convert_function. cbn [fresh]. destruct (annotate_function f) as [body top]. cbn [fst snd]. intros H. change (0 + length imports) with (length imports) in *.
    destruct (entry_vars undef (add_all imports (seq 0 (length imports)) ∅) (order top) (add_all (fargs f) (seq (S (S (length imports))) (length (fargs f))) ∅) (S (S (length imports)) + length (fargs f))) as [[[[ins cargs] us] m] s2].
    destruct (convert_seq (convert order undef match1) None body m s2) as [[[ns m'] s3]|] eqn:E2; [|done]. cbn [mbind option_bind] in H.
    destruct (mapM (fun v => m' !! v) (fresults f)) as [res|] eqn:E3; [|done]. cbn [mbind option_bind nouts] in H. injection H as <-.
    exists ins, cargs, us, m, s2, ns, m', s3, res. done.
  Qed.
  Lemma annotate_function_eq f : annotate_function f = ((annotate_seq annotate (fbody f) (list_to_set (fresults f))).1, (annotate_seq annotate (fbody f) (list_to_set (fresults f))).2 ∖ list_to_set (fargs f)).
  Proof using. unfold annotate_function. by destruct (annotate_seq annotate (fbody f) (list_to_set (fresults f))). Qed.

  Lemma module_wf f imports M : convert_module order undef match1 f imports = Some M -> wf M.
  Proof using.
    clear Horder. intros H. destruct (module_inv f imports M H) as (ins & cargs & us & m & s2 & ns & m' & s3 & res & E1 & E2 & E3 & ->). set (s := length imports) in *. set (k := length (fargs f)) in *.
    destruct (entry_wf _ _ _ _ _ _ _ _ _ _ (seq (S (S s)) k) E1) as (G1 & G2 & G3 & G4 & G5 & G6). { apply good_add; [apply good_empty | done | by rewrite seq_length]. }
    destruct (fine_seq order undef match1 (annotate_function f).1) with (pa := None (A:=atree)) (m := m) (s := s2) (ns := ns) (m' := m') (s' := s3) (av := (seq (S (S s)) k ++ cargs) ++ own us) as ((F1 & F2 & F3) & F4 & F5); [apply Forall_forall; intros a _; apply fine_convert | done | by rewrite <-app_assoc|].
    assert (Hin : forall x, x ∈ ins -> x ∈ seq 0 s).
    { intros x Hx. destruct (G6 x Hx) as [v Hv]. apply (good_add (seq 0 s) ∅ imports (seq 0 s) (good_empty _) ltac:(done) ltac:(by rewrite seq_length) v x Hv). }
    pose proof (entry_spec _ _ _ _ _ _ _ _ _ _ E1) as (Hlen & _ & _).
    split; [|split].
    - cbn [wf_region]. split.
      + cbn [wf_list nins]. split; [by apply Forall_forall|]. split; [|done]. apply wf_node_unfold. split.
        * exists (Region (seq (S (S s)) k ++ cargs) res (us ++ ns)). cbn [rargs length]. rewrite app_length, seq_length. split; [done|]. lia.
        * constructor; [|constructor]. cbn [wf_region]. split; [apply wf_list_app; split; [apply G4 | exact F4]|]. rewrite own_app, app_assoc. by apply (good_all _ m' (fresults f)).
      + constructor; [|constructor]. apply elem_of_app. right. rewrite own_one. left.
    - assert (Hk : (defs (Region (seq 0 s) [S s] [Node s (Lambda k) ins [S s] [Region (seq (S (S s)) k ++ cargs) res (us ++ ns)]])).*1 = seq 0 s ++ [S s] ++ seq (S (S s)) k ++ (cargs ++ keys us) ++ keys ns).
      { unfold defs. cbn [rargs]. rewrite fmap_app. f_equal; [generalize (seq 0 s) as l0; intros l0; induction l0 as [|x l0 IH]; [done|]; cbn; by f_equal|]. rewrite rkeys_eq. change (mjoin (map (fun n => (ndefs n).*1) ?l)) with (keys l). rewrite keys_one, rkeys_cons, keys_app. unfold rkeys. cbn [map]. change (mjoin []) with (@nil nat). by rewrite app_nil_r, <-!app_assoc. }
      rewrite Hk. assert (Hw : within 0 s3 (seq 0 s ++ [S s] ++ seq (S (S s)) k ++ (cargs ++ keys us) ++ keys ns)); [|apply Hw].
      apply (within_app 0 s (S s) s3); [lia | lia | apply (within_seq 0 s)|]. apply (within_app (S s) (S (S s)) (S (S s)) s3); [lia | lia | apply (within_cons (S s) (S (S s))); [lia | lia | apply within_nil]|].
      eapply within_app; [| |apply within_seq|eapply within_app; [| |exact G2|exact F2]]; lia.
    - change (NoDup (ids [Node s (Lambda k) ins [S s] [Region (seq (S (S s)) k ++ cargs) res (us ++ ns)]])). rewrite ids_one, rids_cons, ids_app. unfold rids. cbn [map]. change (mjoin []) with (@nil nat). rewrite app_nil_r.
      assert (Hw : within s s3 (s :: ids us ++ ids ns)); [|apply Hw]. apply (within_cons s (S s)); [lia | lia|]. eapply within_mono; [| |eapply within_app; [| |exact G3|exact F3]]; lia.
  Qed.

  Lemma module_total f imports : function_ok f -> fold_right and True (map no_gap (fbody f)) -> exists M, convert_module order undef match1 f imports = Some M.
  Proof using Horder.
    intros [_ Hok] Hg. unfold convert_module, convert_function. cbn [fresh]. rewrite annotate_function_eq. cbv beta iota.
    destruct (entry_vars undef (add_all imports (seq 0 (length imports)) ∅) (order ((annotate_seq annotate (fbody f) (list_to_set (fresults f))).2 ∖ list_to_set (fargs f))) (add_all (fargs f) (seq (S (S (0 + length imports))) (length (fargs f))) ∅) (S (S (0 + length imports)) + length (fargs f))) as [[[[ins cargs] us] m] s2] eqn:E1.
    destruct (entry_spec _ _ _ _ _ _ _ _ _ _ E1) as (_ & H2 & H3).
    destruct (total_body order undef match1 Horder (fbody f) (list_to_set (fresults f)) None None m s2 Hok Hg) as (ns & m' & s3 & E2 & Hres); [done| |].
    { intros v Hv. destruct (decide (v ∈ fargs f)) as [Ha|Ha].
      - unfold hasv. rewrite H2; [apply (add_all_has order undef match1 Horder); [by rewrite seq_length | by left]|]. rewrite order_elem by done. intros [_ Hn]%elem_of_difference. by rewrite elem_of_list_to_set in Hn.
      - destruct (H3 v) as (o & Ho & _); [|unfold hasv; by rewrite Ho]. rewrite order_elem by done. apply elem_of_difference. by rewrite elem_of_list_to_set. }
    rewrite E2. cbn [mbind option_bind]. destruct (mapM_total order undef match1 Horder m' (fresults f)) as (res & Er & _). { intros v Hv. apply Hres. by apply elem_of_list_to_set. }
    rewrite Er. cbn [mbind option_bind]. by eexists.
  Qed.

  Context {V : Type} (ctl : V -> option nat) (content : V -> V) (sem : nat -> list V -> option (list V)) (truth : V -> bool) (addr imp : nat -> V).
  Context (Hundef : forall v, exists u, sem (undef v) [] = Some [u]).
  Context (Hmatch : forall v, exists w, sem match1 [v] = Some [w] /\ ctl w = Some (if truth v then 1 else 0)).
  Lemma module_sim f imports M (σ0 : nat -> V) xs rs : convert_module order undef match1 f imports = Some M -> NoDup (fargs f) -> NoDup imports ->
    (forall i v, imports !! i = Some v -> σ0 v = imp i) -> (forall v, v ∉ imports -> sem (undef v) [] = Some [σ0 v]) ->
    calls ctl sem truth f σ0 xs rs ->
    exists o id args res, rres M = [o] /\ (o, VLambda id args res) ∈ defs M /\ length args = length xs /\ Forall2 (ev ctl content sem addr imp M (bind (zip args xs))) res rs.
  Proof using All.
    intros H Hnd Hni Himp Hun (Hlx & σ' & Hx & ->). destruct (module_inv f imports M H) as (ins & cargs & us & m & s2 & ns & m' & s3 & res & E1 & E2 & E3 & EM). set (s := length imports) in *. set (k := length (fargs f)) in *.
    rewrite annotate_function_eq in E1, E2. cbn [fst snd] in E1, E2. set (R := list_to_set (fresults f) : gset nat) in *. set (w := (annotate_seq annotate (fbody f) R).2) in *.
    destruct (entry_spec _ _ _ _ _ _ _ _ _ _ E1) as (Hl & Hold & Hnew).
    set (r := Region (seq (S (S s)) k ++ cargs) res (us ++ ns)) in *. set (lam := Node s (Lambda k) ins [S s] [r]) in *.
    assert (Hd : indefs M [lam]). { intros n x ->%elem_of_list_singleton Hx'. subst M. unfold defs. apply elem_of_app. right. apply rdefs_unfold. exists lam. split; [left | done]. }
    assert (Hin : lam ∈ [lam]) by left.
    pose proof (sub_in M _ _ _ _ _ r _ Hd Hin ltac:(left)) as Hsub. cbn [rnodes r] in Hsub. apply indefs_app in Hsub as [Hus Hns].
    exists (S s), s, (seq (S (S s)) k), res. split; [by subst M|]. split.
    { pose proof (out_in M _ _ _ _ _ 0 (S s) _ Hd Hin eq_refl) as Ho. cbn [out_view nth r rargs rres] in Ho. rewrite take_app_alt in Ho by (by rewrite seq_length). exact Ho. }
    split; [by rewrite seq_length|]. set (e := bind (zip (seq (S (S s)) k) xs)).
    assert (Hargs : forall i o x, seq (S (S s)) k !! i = Some o -> xs !! i = Some x -> ev ctl content sem addr imp M e o x).
    { intros i o x Ho Hxi. pose proof Ho as Ho'. apply lookup_seq in Ho' as [-> Hi]. eapply fold_view.
      - apply (arg_in M _ _ _ _ _ r i _ _ Hd Hin); [left|]. cbn [rargs r]. by apply lookup_app_l_Some.
      - cbn [arg_view]. rewrite decide_True by lia. cbn [eqn]. apply (bind_seq (S (S s)) k xs i x 0 x); [done | done|]. intros ?%elem_of_seq. lia. }
    assert (Hentry : forall v, v ∈ order (w ∖ list_to_set (fargs f)) -> known ctl content sem addr imp M e m v (σ0 v)).
    { intros v Hv. destruct (Hnew v Hv) as (o & Ho & [(j & o' & G1 & G2 & G3)|(G & id & Hid)]); exists o; (split; [done|]).
      - eapply fold_view.
        + apply (arg_in M _ _ _ _ _ r (k + j) _ _ Hd Hin); [left|]. cbn [rargs r]. rewrite lookup_app_r by (rewrite seq_length; lia). rewrite seq_length. replace (k + j - k) with j by lia. exact G1.
        + cbn [arg_view]. rewrite decide_False by lia. cbn [eqn]. replace (k + j - k) with j by lia. rewrite (nth_lookup_Some' ins j 0 o' G2).
          destruct (add_all_spec (V:=V) imports (seq 0 s) ∅ v) as [(_ & E & _)|(i & o2 & H1 & H2 & H3 & _)]; [by rewrite seq_length| rewrite E in G3; done|].
          rewrite H3 in G3. injection G3 as ->. apply lookup_seq in H2 as [-> Hi]. apply (fold_view ctl content sem addr imp M emp i (VImport i)); [|exact (Himp i v H1)].
          subst M. unfold defs. apply elem_of_app. left. apply elem_of_list_In, in_map_iff. exists i. split; [done|]. apply elem_of_list_In. cbn [rargs]. apply elem_of_seq. lia.
      - eapply fold_view; [eapply (out_in M _ _ _ _ _ 0 _ _ Hus Hid); done|]. cbn [out_view eqn]. exists [], [σ0 v]. split; [constructor|]. split; [|done]. apply Hun. intros Hi.
        assert (Hh : hasv (add_all imports (seq 0 s) ∅) v) by (apply (add_all_has order undef match1 Horder); [by rewrite seq_length | by left]). unfold hasv in Hh. rewrite G in Hh. by destruct Hh. }
    assert (Harg : forall v, v ∈ fargs f -> known ctl content sem addr imp M e m v (upd_all (fargs f) xs σ0 v)).
    { intros v Hv. destruct (add_all_spec (V:=V) (fargs f) (seq (S (S s)) k) ∅ v) as [(Hn & _)|(i & o & H1 & H2 & H3 & H4)]; [by rewrite seq_length | done|].
      exists o. split; [|apply (Hargs i o); [done | by apply H4]]. rewrite Hold; [done|]. rewrite order_elem by done. intros [_ Hn]%elem_of_difference. by rewrite elem_of_list_to_set in Hn. }
    assert (Hupd : forall v, v ∉ fargs f -> upd_all (fargs f) xs σ0 v = σ0 v).
    { intros v Hv. destruct (add_all_spec (V:=V) (fargs f) (seq (S (S s)) k) ∅ v) as [(_ & _ & Hn)|(i & o & H1 & _)]; [by rewrite seq_length | apply Hn|]. destruct Hv. by eapply elem_of_list_lookup_2. }
    assert (Hhas : has ctl content sem addr imp M e m).
    { intros v o Ho. destruct (decide (v ∈ order (w ∖ list_to_set (fargs f)))) as [Hv|Hv].
      - destruct (Hentry v Hv) as (o' & E & Hev). rewrite E in Ho. injection Ho as <-. by eexists.
      - rewrite Hold in Ho by done. destruct (decide (v ∈ fargs f)) as [Ha|Ha].
        + destruct (Harg v Ha) as (o' & E & Hev). rewrite Hold in E by done. rewrite E in Ho. injection Ho as <-. by eexists.
        + destruct (add_all_spec (V:=V) (fargs f) (seq (S (S s)) k) ∅ v) as [(_ & E & _)|(i & o2 & H1 & _)]; [by rewrite seq_length | by rewrite E in Ho|]. destruct Ha. by eapply elem_of_list_lookup_2. }
    destruct (sim_seq order undef match1 ctl content sem truth addr imp M (fbody f) R R None None m s2 ns m' s3 e (upd_all (fargs f) xs σ0) σ') as (_ & Hc & _); try done.
    { apply Forall_forall. intros t _. by apply sim_all. }
    { intros v Hv. apply (working_seq (fbody f) R R (reflexivity _)) in Hv. fold w in Hv. destruct (decide (v ∈ fargs f)) as [Ha|Ha]; [by apply Harg|]. rewrite Hupd by done. apply Hentry. rewrite order_elem by done. apply elem_of_difference. by rewrite elem_of_list_to_set. }
    apply (known_all ctl content sem addr imp M e m' σ' (fresults f) res E3). intros v Hv. apply Hc. by apply elem_of_list_to_set.
  Qed.
End Fun.
