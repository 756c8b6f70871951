(** Marking the outputs of gamma and theta nodes. *)
From stdpp Require Import base list list_numbers fin_sets gmap.
From Verif.Rvsdg Require Import Model Spec Sem Wf WfFacts Args Divert Local.
From Verif.Ivr Require Import Model ProofsRel ProofsWf.
From Verif.Cne Require Import Model Spec ProofsSem ProofsState ProofsPart Just Pre.

Lemma imap_pair_elem (l : list nat) k o : (k, o) ∈ imap pair l <-> l !! k = Some o.
Proof.
  rewrite elem_of_list_lookup. split.
  - intros [i Hi]. rewrite list_lookup_imap in Hi. destruct (l !! i) as [x|] eqn:E; [|done]. cbn in Hi. by injection Hi as <- <-.
  - intros H. exists k. by rewrite list_lookup_imap, H.
Qed.
Lemma imap_pair_snd (l : list nat) : (imap pair l).*2 = l.
Proof. apply list_eq. intros i. rewrite list_lookup_fmap, list_lookup_imap. by destruct (l !! i). Qed.

Section Exit.
  Context (choose : cstate -> list nat -> option nat) (Hch : forall σ l x, choose σ l = Some x -> x ∈ l).
  Context (ins outs : list oid) (subs : list region) (Hn : NoDup outs) (Hi : forall x, x ∈ ins -> x ∉ outs) (Hr : forall r x, r ∈ subs -> x ∈ rres r -> x ∉ outs).
  Definition ecase (s : oid -> oid) (k : nat) (o : oid) : Prop := s o = o \/
    (exists k', outs !! k' = Some (s o) /\ forall r, r ∈ subs -> exists x y, rres r !! k = Some x /\ rres r !! k' = Some y /\ s x = s y) \/
    (exists z0, z0 ∈ ins /\ s z0 = s o /\ forall r, r ∈ subs -> exists x i z, rres r !! k = Some x /\ rargs r !! i = Some x /\ arg_origin Gamma ins r i = Some z /\ s z = s o).
  Lemma ecase_ext s s' k o o' : (forall x, x <> o' -> s' x = s x) -> o' ∈ outs -> o <> o' -> ecase s k o -> ecase s' k o.
  Proof using Hi Hr.
    clear -Hi Hr. intros He Ho' Hne H. assert (Hres : forall r x j, r ∈ subs -> rres r !! j = Some x -> s' x = s x). { intros r x j Hin Hx. apply He. intros ->. apply (Hr r o' Hin); [by eapply elem_of_list_lookup_2 | done]. }
    destruct H as [H|[(k' & H1 & H2)|(z0 & Hz0 & Hsz0 & H)]]; [left | right; left | right; right].
    - by rewrite He.
    - exists k'. rewrite (He o) by done. split; [done|]. intros r Hin. destruct (H2 r Hin) as (x & y & Hx & Hy & Hs). exists x, y. split; [done|]. split; [done|]. by rewrite (Hres r x _ Hin Hx), (Hres r y _ Hin Hy).
    - exists z0. split; [done|]. split; [rewrite (He o), (He z0); [done | | done]; intros ->; by apply (Hi o')|]. intros r Hin. destruct (H r Hin) as (x & i & z & Hx & Ha & Hz & Hs). exists x, i, z. split; [done|]. split; [done|]. split; [done|]. rewrite (He o), (He z); [done | | done]. intros ->. apply (Hi o'); [by eapply arg_origin_ins | done].
  Qed.
  Lemma exit_congruent_spec σ k k' : SW σ -> exit_congruent σ subs k k' = true -> forall r, r ∈ subs -> exists x y, rres r !! k = Some x /\ rres r !! k' = Some y /\ lead σ x = lead σ y.
  Proof using.
    clear. intros Hw H r Hin. unfold exit_congruent in H. rewrite forallb_forall in H. apply elem_of_list_In in Hin. specialize (H r Hin). destruct (rres r !! k) as [x|]; [|done]. destruct (rres r !! k') as [y|]; [|done]. exists x, y. split; [done|]. split; [done|]. by apply same_set_lead in H as (_ & _ & ?).
  Qed.
  Lemma exit_var_set_spec σ k l sh i : exit_var_set σ ins k l sh = Some (Some i) -> (forall j, sh = Some j -> j = i) /\
    forall r, r ∈ l -> exists x idx z, rres r !! k = Some x /\ rargs r !! idx = Some x /\ arg_origin Gamma ins r idx = Some z /\ cmap σ !! z = Some i.
  Proof using.
    clear. revert sh. induction l as [|r l IH]; intros sh; cbn [exit_var_set].
    - intros [= ->]. split; [by intros j [= ->] | by intros r ?%elem_of_nil].
    - destruct (rres r !! k) as [x|] eqn:Ex; cbn [mbind option_bind]; [|done]. destruct (position x (rargs r)) as [idx|] eqn:Ep; [|done]. destruct (arg_origin Gamma ins r idx) as [z|] eqn:Ez; cbn [mbind option_bind]; [|done].
      destruct (cmap σ !! z) as [j|] eqn:Ej; cbn [mbind option_bind]; [|done]. apply position_lookup in Ep.
      assert (Hhd : forall r', r' ∈ r :: l -> (forall r', r' ∈ l -> exists x idx z, rres r' !! k = Some x /\ rargs r' !! idx = Some x /\ arg_origin Gamma ins r' idx = Some z /\ cmap σ !! z = Some i) -> j = i ->
        exists x idx z, rres r' !! k = Some x /\ rargs r' !! idx = Some x /\ arg_origin Gamma ins r' idx = Some z /\ cmap σ !! z = Some i).
      { intros r' [->|Hin]%elem_of_cons HT ->; [by exists x, idx, z | auto]. }
      destruct sh as [j'|].
      + case_decide as Hd; [|done]. intros H. destruct (IH _ H) as [H1 H2]. split; [done|]. intros r' Hr'. apply Hhd; [done | done|]. subst. by apply H1.
      + intros H. destruct (IH _ H) as [H1 H2]. split; [done|]. intros r' Hr'. apply Hhd; [done | done|]. by apply H1.
  Qed.
  Record einv (σ0 : cstate) (P : list (nat * oid)) (table : list nat) (σ : cstate) : Prop := EInv {
    e_sw : SW σ;
    e_ext : ext σ0 σ outs;
    e_done : forall k o, (k, o) ∈ P -> ecase (lead σ) k o;
    e_tab : forall k, k ∈ table -> exists o, (k, o) ∈ P /\ outs !! k = Some o /\ marked σ o /\ lead σ o = o }.
  Lemma lookup_outs_ne k k' o o' : outs !! k = Some o -> outs !! k' = Some o' -> (k, o) <> (k', o') -> o <> o'.
  Proof using Hn. clear -Hn. intros H1 H2 Hne ->. apply Hne. f_equal. by eapply NoDup_lookup. Qed.
  Lemma ext1 σ σ' o x : SW σ -> ext σ σ' [o] -> x <> o -> lead σ' x = lead σ x.
  Proof using. clear. intros Hw He Hne. eapply ext_lead; [done | exact He|]. by rewrite elem_of_list_singleton. Qed.
  Lemma einv_step σ0 P table σ k o table' σ' : einv σ0 P table σ -> (forall k o, (k, o) ∈ P -> outs !! k = Some o) -> outs !! k = Some o -> (k, o) ∉ P ->
    mark_exit_var choose ins outs subs (Some (table, σ)) (k, o) = Some (table', σ') -> einv σ0 (P ++ [(k, o)]) table' σ'.
  Proof using Hch Hn Hi Hr.
    intros [H1 H2 H3 H4] HP Ho Hnew H. assert (Hout : o ∈ outs) by (by eapply elem_of_list_lookup_2).
    assert (Hfin : forall σ' table', SW σ' -> ext σ σ' [o] -> ecase (lead σ') k o -> (table' = table \/ (table' = k :: table /\ marked σ' o /\ lead σ' o = o)) -> einv σ0 (P ++ [(k, o)]) table' σ').
    { intros σ1 tb Hw He Hc Htb. assert (Hne : forall k' o', (k', o') ∈ P -> o' <> o) by (intros k' o' Hin; eapply lookup_outs_ne; [by apply HP | exact Ho | intros [= -> ->]; done]). split.
      - done.
      - eapply ext_trans; [exact H2|]. eapply ext_weaken; [|exact He]. intros x. rewrite elem_of_list_singleton. by intros ->.
      - intros k' o'. rewrite elem_of_app, elem_of_list_singleton. intros [Hin|[= -> ->]]; [|done]. eapply ecase_ext; [|exact Hout | by eapply Hne | by apply H3]. intros x Hx. by eapply ext1.
      - assert (Hold : forall k', k' ∈ table -> exists o0, (k', o0) ∈ P ++ [(k, o)] /\ outs !! k' = Some o0 /\ marked σ1 o0 /\ lead σ1 o0 = o0).
        { intros k' Hk'. destruct (H4 k' Hk') as (o0 & G1 & G2 & G3 & G4). exists o0. pose proof (Hne _ _ G1) as Hno. split; [apply elem_of_app; by left|]. split; [done|]. split; [eapply ext_marked; [exact He | by rewrite elem_of_list_singleton | done]|]. by rewrite (ext1 _ _ _ _ H1 He Hno). }
        destruct Htb as [->|(-> & Hm & Hl)]; [done|]. intros k' [->|Hk']%elem_of_cons; [|auto]. exists o. split; [apply elem_of_app; right; left|]. done. }
    assert (Hself : forall σ', lead σ' o = o -> ecase (lead σ') k o) by (intros; by left).
    assert (Hlk : lookup_exit choose subs k o outs table σ = Some (table', σ') -> einv σ0 (P ++ [(k, o)]) table' σ').
    { unfold lookup_exit. destruct (choose σ _) as [k'|] eqn:Ec.
      - apply Hch in Ec. apply elem_of_list_filter in Ec as [Ec1 Ec2]. destruct (H4 _ Ec2) as (o' & G1 & G2 & [i Hi'] & G4). rewrite G2. cbn [mbind option_bind]. rewrite Hi'. cbn [mbind option_bind].
        destruct (add_follower i o σ) as [σ1|] eqn:E; cbn [mbind option_bind]; [|done]. intros [= <- <-]. pose proof (lead_set _ _ _ H1 Hi') as Hls. rewrite G4 in Hls. destruct (add_follower_lead _ _ _ _ _ H1 Hls E) as (F1 & F2 & F3 & F4).
        apply Hfin; [done | done | | by left]. right; left. exists k'. rewrite F4. split; [done|]. intros r Hin. destruct (exit_congruent_spec _ _ _ H1 Ec1 r Hin) as (x & y & Hx & Hy & Hxy). exists x, y. split; [done|]. split; [done|].
        rewrite !(ext1 _ _ _ _ H1 F2); [done | |]; intros ->; apply (Hr r o Hin); try done; (eapply elem_of_list_lookup_2; first [exact Hy | exact Hx]).
      - intros [= <- <-]. destruct (get_or_create_lead σ o H1) as (F1 & F2 & F3 & F4). apply Hfin; [done | done | by apply Hself | by right]. }
    assert (Hfr : forall skip : bool, (inv ← (if skip then Some None else exit_var_set σ ins k subs None); match inv with Some i => σ' ← add_follower i o σ; Some (table, σ') | None => lookup_exit choose subs k o outs table σ end) = Some (table', σ') -> einv σ0 (P ++ [(k, o)]) table' σ').
    { intros skip. destruct skip; cbn [mbind option_bind]; [exact Hlk|]. destruct (exit_var_set σ ins k subs None) as [[i|]|] eqn:Ev; cbn [mbind option_bind]; [|exact Hlk|done]. destruct (add_follower i o σ) as [σ1|] eqn:E; cbn [mbind option_bind]; [|done]. intros [= <- <-].
      assert (Hr0 : exists r0, r0 ∈ subs). { clear -Ev. destruct subs as [|r0 rs]; [done|]. exists r0. left. }
      apply exit_var_set_spec in Ev as [_ Ev]. destruct Hr0 as [r0 Hr0]. destruct (Ev r0 Hr0) as (x0 & i0 & z0 & _ & _ & Hor0 & Hz0). apply arg_origin_ins in Hor0. pose proof (lead_set _ _ _ H1 Hz0) as Hls. destruct (add_follower_lead _ _ _ _ _ H1 Hls E) as (F1 & F2 & F3 & F4).
      apply Hfin; [done | done | | by left]. right; right. exists z0. split; [done|]. split; [rewrite F4; eapply ext1; [done | exact F2 | intros ->; by apply (Hi o)]|]. intros r Hin. destruct (Ev r Hin) as (x & idx & z & Hx & Ha & Hz & Hc). exists x, idx, z. split; [done|]. split; [done|]. split; [done|]. rewrite F4, (ext1 _ _ _ _ H1 F2).
      - apply lead_cmap; [done | eexists; done | congruence].
      - intros ->. apply (Hi o); [by eapply arg_origin_ins | done]. }
    cbn [mark_exit_var mbind option_bind] in H. destruct (cmap σ !! o) as [i|] eqn:Ei; [|by apply (Hfr false)]. destruct (leads σ !! i) as [l|] eqn:El; cbn [mbind option_bind] in H; [|done]. pose proof (lead_Some _ _ _ _ Ei El) as Hl. case_decide as Hd.
    - injection H as <- <-. subst l. apply Hfin; [done | apply ext_refl | by apply Hself |]. right. split; [done|]. split; [eexists; done | done].
    - destruct (position l outs) as [k'|] eqn:Ep; [|by apply (Hfr false)]. destruct (exit_congruent σ subs k k') eqn:Ee; [|by apply (Hfr true)]. injection H as <- <-. apply position_lookup in Ep. apply Hfin; [done | apply ext_refl | | by left].
      right; left. exists k'. rewrite Hl. split; [done|]. by apply exit_congruent_spec.
  Qed.
  Lemma einv_fold L σ0 P table σ table' σ' : einv σ0 P table σ -> NoDup (P ++ L) -> (forall k o, (k, o) ∈ P ++ L -> outs !! k = Some o) ->
    foldl (mark_exit_var choose ins outs subs) (Some (table, σ)) L = Some (table', σ') -> einv σ0 (P ++ L) table' σ'.
  Proof using Hch Hn Hi Hr.
    revert P table σ. induction L as [|[k o] L IH]; intros P table σ Hp Hnd HP; cbn [foldl]; [rewrite app_nil_r; by intros [= <- <-]|].
    destruct (mark_exit_var choose ins outs subs (Some (table, σ)) (k, o)) as [[tb σ1]|] eqn:E; [|by rewrite foldl_None by (by intros [])]. intros H. rewrite cons_middle, app_assoc in HP, Hnd |- *. eapply IH; [|done | done | exact H].
    eapply einv_step; [exact Hp | | | |exact E].
    - intros k' o' Hin. apply HP. apply elem_of_app. left. apply elem_of_app. by left.
    - apply HP. apply elem_of_app. left. apply elem_of_app. right. left.
    - rewrite <-app_assoc in Hnd. apply NoDup_app in Hnd as (_ & Hd & _). intros Hin. apply (Hd _ Hin). left.
  Qed.
  Lemma mark_exit_vars_spec σ σ' : SW σ -> mark_exit_vars choose ins outs subs σ = Some σ' -> SW σ' /\ ext σ σ' outs /\ jexit (lead σ') ins outs subs.
  Proof using Hch Hn Hi Hr.
    intros Hw H. unfold mark_exit_vars in H. destruct (foldl _ _ _) as [[tb σ1]|] eqn:E; cbn [mbind option_bind] in H; [|done]. injection H as <-.
    assert (Hp : einv σ [] [] σ). { split; [done | apply ext_refl | by intros ?? ?%elem_of_nil | by intros ? ?%elem_of_nil]. }
    assert (Hnd : NoDup ([] ++ imap pair outs)) by (rewrite app_nil_l; apply (NoDup_fmap_1 snd); by rewrite imap_pair_snd).
    assert (HP : forall k o, (k, o) ∈ [] ++ imap pair outs -> outs !! k = Some o) by (intros k o; rewrite app_nil_l; by rewrite imap_pair_elem).
    destruct (einv_fold _ _ [] _ _ _ _ Hp Hnd HP E) as [H1 H2 H3 H4].
    split; [done|]. split; [done|]. intros k o Ho. apply H3. by rewrite app_nil_l, imap_pair_elem.
  Qed.
End Exit.

Section ThetaOut.
  Context (ins outs : list oid) (r : region) (Hn : NoDup outs) (Hna : NoDup (rargs r)) (Hi : forall x, x ∈ ins -> x ∉ outs) (Ha : forall x, x ∈ rargs r -> x ∉ outs) (Hr : forall x, x ∈ rres r -> x ∉ outs).
  Context (Hl1 : length ins = length (rargs r)) (Hl2 : length (rres r) = S (length (rargs r))).
  Definition tcase (s : oid -> oid) (o x : oid) : Prop := s o = o \/
    (exists j y, outs !! j = Some (s o) /\ rres r !! S j = Some y /\ s x = s y) \/ (exists j z, jinv s r x j /\ ins !! j = Some z /\ s z = s o).
  Lemma res_ne x i o : rres r !! i = Some x -> o ∈ outs -> x <> o.
  Proof using Hr. clear -Hr. intros Hx Ho ->. apply (Hr o); [by eapply elem_of_list_lookup_2 | done]. Qed.
  Lemma tcase_ext s s' o x i o' : (forall x, x <> o' -> s' x = s x) -> o' ∈ outs -> o <> o' -> rres r !! i = Some x -> tcase s o x -> tcase s' o x.
  Proof using Hi Hr.
    clear -Hi Hr. intros He Ho' Hne Hx H. assert (Hres : forall x j, rres r !! j = Some x -> s' x = s x). { intros y j Hy. apply He. by eapply res_ne. }
    destruct H as [H|[(j & y & H1 & H2 & H3)|(j & z & (y & H1 & H2 & H3) & H4 & H5)]]; [left | right; left | right; right].
    - by rewrite He.
    - exists j, y. rewrite (He o) by done. split; [done|]. split; [done|]. by rewrite (Hres _ _ Hx), (Hres _ _ H2).
    - exists j, z. split; [|split; [done|]].
      + exists y. rewrite (Hres _ _ Hx), (Hres _ _ H2). done.
      + rewrite (He o), (He z); [done | | done]. intros ->. apply (Hi o'); [by eapply elem_of_list_lookup_2 | done].
  Qed.
  Lemma output_invariant_Some σ i z x : SW σ -> jargs (lead σ) Theta ins r -> jposts (lead σ) r -> output_invariant σ ins r i = Some (Some z) -> rres r !! S i = Some x ->
    z ∈ ins /\ exists j z', jinv (lead σ) r x j /\ ins !! j = Some z' /\ lead σ z' = lead σ z.
  Proof using Hl1 Hl2.
    clear Hn Hna Hi Ha Hr. intros Hw Hj Hp H Hx. unfold output_invariant in H. destruct (rargs r !! i) as [pre|] eqn:Epre; cbn [mbind option_bind] in H; [|done]. rewrite Hx in H. cbn [mbind option_bind] in H. destruct (ins !! i) as [inp|] eqn:Einp; cbn [mbind option_bind] in H; [|done].
    assert (Hin : inp ∈ ins) by (by eapply elem_of_list_lookup_2). case_decide as Hd.
    { injection H as <-. subst pre. split; [done|]. destruct (Hj _ _ Epre) as (j & Hja & Hm). cbn [arg_origin] in Hm. rewrite Einp in Hm. destruct Hm as (y & Hy & Hxy). exists j, y. split; [|done].
      destruct (lookup_lt_is_Some_2 (rres r) (S j)) as [q Hq]; [apply lookup_lt_Some in Hja; lia|]. exists q. split; [done|]. split; [done|]. exact (Hp _ _ _ _ _ _ Hja Epre (lead_idem σ x Hw) Hq Hx). }
    destruct (cmap σ !! x) as [c|] eqn:Ec; cbn [mbind option_bind] in H; [|done]. destruct (leads σ !! c) as [l|] eqn:El; cbn [mbind option_bind] in H; [|done]. pose proof (lead_Some _ _ _ _ Ec El) as Hl. case_decide as Hd2.
    { injection H as <-. subst l. split; [done|]. exists i, inp. split; [|done]. exists x. by rewrite Hl. }
    destruct (position l (rargs r)) as [j|] eqn:Ep; [|done]. apply position_lookup in Ep. destruct (rres r !! S j) as [post'|] eqn:Ep'; cbn [mbind option_bind] in H; [|done]. destruct (ins !! j) as [inp'|] eqn:Einp'; cbn [mbind option_bind] in H; [|done].
    assert (Hin' : inp' ∈ ins) by (by eapply elem_of_list_lookup_2). case_decide as Hd3.
    { injection H as <-. split; [done|]. exists j, inp'. split; [|done]. exists post'. rewrite Hl. split; [done|]. split; [done|]. subst post' l. by apply lead_idem. }
    destruct (cmap σ !! post') as [c'|] eqn:Ec'; cbn [mbind option_bind] in H; [|done]. destruct (leads σ !! c') as [l'|] eqn:El'; cbn [mbind option_bind] in H; [|done]. pose proof (lead_Some _ _ _ _ Ec' El') as Hl'. case_decide as Hd4; [|done]. injection H as <-.
    split; [done|]. exists j, inp'. split; [|done]. exists post'. rewrite Hl. split; [done|]. split; [done|]. congruence.
  Qed.
  Lemma output_invariant_None σ i x j : output_invariant σ ins r i = Some None -> rres r !! S i = Some x -> ~ jinv (lead σ) r x j.
  Proof using Hna.
    clear Hn Hi Ha Hr Hl1 Hl2. intros H Hx (y & H1 & H2 & H3). unfold output_invariant in H. destruct (rargs r !! i) as [pre|] eqn:Epre; cbn [mbind option_bind] in H; [|done]. rewrite Hx in H. cbn [mbind option_bind] in H. destruct (ins !! i) as [inp|] eqn:Einp; cbn [mbind option_bind] in H; [|done].
    case_decide as Hd; [done|]. destruct (cmap σ !! x) as [c|] eqn:Ec; cbn [mbind option_bind] in H; [|done]. destruct (leads σ !! c) as [l|] eqn:El; cbn [mbind option_bind] in H; [|done]. pose proof (lead_Some _ _ _ _ Ec El) as Hl. case_decide as Hd2; [done|].
    rewrite Hl in H1, H3. rewrite (position_nodup _ _ _ Hna H1) in H. rewrite H2 in H. cbn [mbind option_bind] in H. destruct (ins !! j) as [inp'|]; cbn [mbind option_bind] in H; [|done]. case_decide; [done|].
    destruct (cmap σ !! y) as [c'|] eqn:Ec'; cbn [mbind option_bind] in H; [|done]. destruct (leads σ !! c') as [l'|] eqn:El'; cbn [mbind option_bind] in H; [|done]. pose proof (lead_Some _ _ _ _ Ec' El') as Hl'. rewrite decide_True in H by congruence. done.
  Qed.
  Record tinv (σ0 : cstate) (P : list (nat * oid)) (map : list (nat * nat)) (σ : cstate) : Prop := TInv {
    t_sw : SW σ;
    t_ext : ext σ0 σ P.*2;
    t_done : forall i o x, (i, o) ∈ P -> rres r !! S i = Some x -> tcase (lead σ) o x;
    t_map : forall c j, (c, j) ∈ map -> exists i o x, (i, o) ∈ P /\ outs !! i = Some o /\ leads σ !! j = Some o /\ rres r !! S i = Some x /\ cmap σ !! x = Some c }.
  Lemma tinv_step (only : bool) σ0 P map σ i o map' σ' : SW σ0 -> jargs (lead σ0) Theta ins r -> jposts (lead σ0) r -> (only = true -> theta_done σ0 outs r) -> tinv σ0 P map σ -> (forall i o, (i, o) ∈ P -> outs !! i = Some o) -> outs !! i = Some o -> (i, o) ∉ P ->
    mark_theta_output only ins r (Some (map, σ)) (i, o) = Some (map', σ') -> tinv σ0 (P ++ [(i, o)]) map' σ'.
  Proof using Hn Hna Hi Ha Hr Hl1 Hl2.
    intros Hw0 Hj Hp Honly [H1 H2 H3 H4] HP Ho Hnew H. assert (Hout : o ∈ outs) by (by eapply elem_of_list_lookup_2).
    assert (Hne : forall k' o', (k', o') ∈ P -> o' <> o) by (intros k' o' Hin; eapply (lookup_outs_ne outs Hn); [by apply HP | exact Ho | intros [= -> ->]; done]).
    assert (HP2 : forall x, x ∈ P.*2 -> x ∈ outs). { intros x Hx. apply elem_of_list_fmap in Hx as ([k' o'] & -> & Hin). cbn. by eapply elem_of_list_lookup_2, HP. }
    assert (Hs0 : forall x, x ∉ outs -> lead σ x = lead σ0 x) by (intros x Hx; eapply ext_lead; [done | exact H2|]; auto).
    assert (Hagr : agree (lead σ0) (lead σ) (ins ++ rargs r ++ rres r)). { intros x Hx. apply Hs0. apply elem_of_app in Hx as [Hx|Hx]; [auto|]. apply elem_of_app in Hx as [Hx|Hx]; auto. }
    assert (Hj' : jargs (lead σ) Theta ins r).
    { intros k a Hk. destruct (Hj k a Hk) as (j & Hja & Hm). rewrite (Hagr a) by (rewrite !elem_of_app; right; left; by eapply elem_of_list_lookup_2). exists j. split; [done|]. destruct (arg_origin Theta ins r k) as [x|] eqn:Ex; [|done]. destruct Hm as (y & Hy & Hxy). exists y. split; [done|].
      rewrite !Hagr; [done | |]; apply elem_of_app; left; by eapply arg_origin_ins. }
    assert (Hp' : jposts (lead σ) r).
    { intros a b u v x y E1 E2 E3 E4 E5. rewrite !Hagr in E3 by (rewrite !elem_of_app; right; left; by eapply elem_of_list_lookup_2). rewrite !Hagr by (rewrite !elem_of_app; right; right; by eapply elem_of_list_lookup_2). exact (Hp a b u v x y E1 E2 E3 E4 E5). }
    assert (Hfin : forall σ' map', SW σ' -> ext σ σ' [o] -> (forall x, rres r !! S i = Some x -> tcase (lead σ') o x) ->
      (map' = map \/ exists c j x, map' = (c, j) :: map /\ leads σ' !! j = Some o /\ rres r !! S i = Some x /\ cmap σ !! x = Some c) -> tinv σ0 (P ++ [(i, o)]) map' σ').
    { intros σ1 tb Hw He Hc Htb. split.
      - done.
      - rewrite fmap_app. eapply ext_trans; [eapply ext_weaken; [|exact H2] | eapply ext_weaken; [|exact He]]; intros x Hx; apply elem_of_app; [by left | right; done].
      - intros k' o' x. rewrite elem_of_app, elem_of_list_singleton. intros [Hin|[= -> ->]] Hx; [|auto]. eapply tcase_ext; [|exact Hout | by eapply Hne | exact Hx | by eapply H3]. intros y Hy. by eapply ext1.
      - assert (Hcx : forall x k, rres r !! k = Some x -> cmap σ1 !! x = cmap σ !! x). { intros x k Hx. apply He. rewrite elem_of_list_singleton. by eapply res_ne. }
        assert (Hold : forall c j, (c, j) ∈ map -> exists i0 o0 x, (i0, o0) ∈ P ++ [(i, o)] /\ outs !! i0 = Some o0 /\ leads σ1 !! j = Some o0 /\ rres r !! S i0 = Some x /\ cmap σ1 !! x = Some c).
        { intros c j Hin. destruct (H4 c j Hin) as (i0 & o0 & x & G1 & G2 & G3 & G4 & G5). exists i0, o0, x. split; [apply elem_of_app; by left|]. split; [done|]. split; [eapply prefix_lookup; [exact G3 | apply He]|]. split; [done|]. by rewrite (Hcx _ _ G4). }
        destruct Htb as [->|(c & j & x & -> & G1 & G2 & G3)]; [done|]. intros c' j' [[= -> ->]|Hin]%elem_of_cons; [|auto]. exists i, o, x. split; [apply elem_of_app; right; left|]. split; [done|]. split; [done|]. split; [done|]. by rewrite (Hcx _ _ G2). }
    cbn [mark_theta_output mbind option_bind] in H. destruct (output_invariant σ ins r i) as [[z|]|] eqn:Eo; cbn [mbind option_bind] in H; [| |done].
    - destruct (cmap σ !! z) as [c|] eqn:Ec; cbn [mbind option_bind] in H; [|done]. destruct (add_follower c o σ) as [σ1|] eqn:E; cbn [mbind option_bind] in H; [|done]. injection H as <- <-.
      pose proof (lead_set _ _ _ H1 Ec) as Hls. destruct (add_follower_lead _ _ _ _ _ H1 Hls E) as (F1 & F2 & F3 & F4). apply Hfin; [done | done | | by left]. intros x Hx. destruct (output_invariant_Some _ _ _ _ H1 Hj' Hp' Eo Hx) as (Hz & j & z' & (y & J1 & J2 & J3) & J4 & J5).
      assert (Hz' : lead σ1 z' = lead σ z'). { eapply ext1; [done | exact F2|]. intros ->. apply (Hi o); [by eapply elem_of_list_lookup_2 | done]. }
      right; right. exists j, z'. split; [|split; [done|]].
      + exists y. rewrite !(ext1 _ _ _ _ H1 F2); [done | |]; by eapply res_ne.
      + by rewrite F4, Hz'.
    - destruct only.
      { injection H as <- <-. apply Hfin; [done | apply ext_refl | | by left]. intros x Hx. destruct (Honly eq_refl) as [_ Ht]. assert (Hso : lead σ o = lead σ0 o). { eapply ext_lead; [done | exact H2|]. intros Hin. apply elem_of_list_fmap in Hin as ([k' o'] & He & Hin). cbn in He. subst o'. by apply (Hne k' o). }
        assert (Hres : forall x j, rres r !! j = Some x -> lead σ x = lead σ0 x) by (intros y j Hy; apply Hagr; rewrite !elem_of_app; right; right; by eapply elem_of_list_lookup_2).
        destruct (Ht i o x Ho Hx) as [Hc|[(j & y & J1 & J2 & J3)|(j & y & J1 & J2 & J3)]]; [left; congruence | right; left |].
        - exists j, y. rewrite Hso, (Hres _ _ Hx), (Hres _ _ J2). done.
        - exfalso. apply (output_invariant_None _ _ _ j Eo Hx). exists y. rewrite (Hres _ _ Hx), (Hres _ _ J2). done. }
      destruct (rres r !! S i) as [x|] eqn:Ex; cbn [mbind option_bind] in H; [|done]. destruct (cmap σ !! x) as [c|] eqn:Ec; cbn [mbind option_bind] in H; [|done]. destruct (lookup_key c map) as [j|] eqn:El.
      + apply lookup_key_Some in El. destruct (H4 _ _ El) as (i0 & o0 & x0 & G1 & G2 & G3 & G4 & G5). destruct (add_follower j o σ) as [σ1|] eqn:E; cbn [mbind option_bind] in H; [|done]. injection H as <- <-.
        destruct (add_follower_lead _ _ _ _ _ H1 G3 E) as (F1 & F2 & F3 & F4). apply Hfin; [done | done | | by left]. intros x' [= <-]. right; left. exists i0, x0. rewrite F4. split; [done|]. split; [done|].
        rewrite !(ext1 _ _ _ _ H1 F2); [|by eapply res_ne | by eapply res_ne]. apply lead_cmap; [done | eexists; done | congruence].
      + destruct (get_or_create σ o) as [j σ1] eqn:E. injection H as <- <-. pose proof (get_or_create_spec _ _ _ _ H1 E) as (F1 & F2 & F3 & F4 & _). apply Hfin; [done | done | |].
        * intros x' _. left. by eapply lead_Some.
        * right. exists c, j, x. done.
  Qed.
  Lemma tinv_fold (only : bool) L σ0 P map σ map' σ' : SW σ0 -> jargs (lead σ0) Theta ins r -> jposts (lead σ0) r -> (only = true -> theta_done σ0 outs r) -> tinv σ0 P map σ -> NoDup (P ++ L) -> (forall i o, (i, o) ∈ P ++ L -> outs !! i = Some o) ->
    foldl (mark_theta_output only ins r) (Some (map, σ)) L = Some (map', σ') -> tinv σ0 (P ++ L) map' σ'.
  Proof using Hn Hna Hi Ha Hr Hl1 Hl2.
    intros Hw0 Hj Hp Honly. revert P map σ. induction L as [|[k o] L IH]; intros P map σ Ht Hnd HP; cbn [foldl]; [rewrite app_nil_r; by intros [= <- <-]|].
    destruct (mark_theta_output only ins r (Some (map, σ)) (k, o)) as [[tb σ1]|] eqn:E; [|by rewrite foldl_None by (by intros [])]. intros H. rewrite cons_middle, app_assoc in HP, Hnd |- *. eapply IH; [|done | done | exact H].
    eapply tinv_step; [done | done | done | exact Honly | exact Ht | | | |exact E].
    - intros k' o' Hin. apply HP. apply elem_of_app. left. apply elem_of_app. by left.
    - apply HP. apply elem_of_app. left. apply elem_of_app. right. left.
    - rewrite <-app_assoc in Hnd. apply NoDup_app in Hnd as (_ & Hd & _). intros Hin. apply (Hd _ Hin). left.
  Qed.
  Lemma mark_theta_outputs_spec (only : bool) σ σ' : SW σ -> jargs (lead σ) Theta ins r -> jposts (lead σ) r -> (only = true -> theta_done σ outs r) -> mark_theta_outputs only ins outs r σ = Some σ' ->
    SW σ' /\ ext σ σ' outs /\ jthout (lead σ') ins outs r.
  Proof using Hn Hna Hi Ha Hr Hl1 Hl2.
    intros Hw Hj Hp Honly H. unfold mark_theta_outputs in H. destruct (foldl _ _ _) as [[tb σ1]|] eqn:E; cbn [mbind option_bind] in H; [|done]. injection H as <-.
    assert (Ht : tinv σ [] [] σ). { split; [done | apply ext_refl | by intros ??? ?%elem_of_nil | by intros ?? ?%elem_of_nil]. }
    assert (Hnd : NoDup ([] ++ imap pair outs)) by (rewrite app_nil_l; apply (NoDup_fmap_1 snd); by rewrite imap_pair_snd).
    assert (HP : forall k o, (k, o) ∈ [] ++ imap pair outs -> outs !! k = Some o) by (intros k o; rewrite app_nil_l; by rewrite imap_pair_elem).
    destruct (tinv_fold _ _ _ [] _ _ _ _ Hw Hj Hp Honly Ht Hnd HP E) as [H1 H2 H3 H4]. rewrite app_nil_l, imap_pair_snd in H2. split; [done|]. split; [done|]. intros i o x Ho Hx. apply (H3 i o x); [|done]. by rewrite app_nil_l, imap_pair_elem.
  Qed.
End ThetaOut.
