(** Marking the subregions of a structural node; the loop for the body of a theta node. *)
From stdpp Require Import base list list_numbers fin_sets gmap.
From Verif.Rvsdg Require Import Model Spec Sem Wf WfFacts Args Divert Local.
From Verif.Ivr Require Import Model.
From Verif.Cne Require Import Model Spec ProofsSem ProofsState ProofsPart Just Pre.

(** what marking a region does *)
Definition marks (r : region) (f : cstate -> option cstate) : Prop := forall σ σ', SW σ -> pre_region σ r -> f σ = Some σ' ->
  SW σ' /\ ext σ σ' (rdefs r).*1 /\ pre_region σ' r /\ (dok_region (lead σ') r -> jregion (lead σ') r).
Lemma mapM_lookup {A B} (f : A -> option B) l k i : mapM f l = Some k -> forall x, l !! i = Some x -> exists y, k !! i = Some y /\ f x = Some y.
Proof. intros H%mapM_Some x Hx. destruct (Forall2_lookup_l _ _ _ _ _ H Hx) as (y & Hy & Hf). eauto. Qed.
Lemma sub_keys_spec k ins r σ keys : sub_keys k ins r σ = Some keys -> length keys = length (rargs r) /\ forall i, i < length (rargs r) -> exists key, keys !! i = Some key /\
  match arg_origin k ins r i with Some x => cmap σ !! x = Some key | None => key = length (leads σ) + i end.
Proof.
  intros H. unfold sub_keys in H. split; [apply mapM_length in H; by rewrite seq_length in H|]. intros i Hi. destruct (mapM_lookup _ _ _ i H i) as (key & Hk & He); [by apply lookup_seq_lt|]. exists key. split; [done|]. destruct (arg_origin k ins r i); [done|]. by injection He.
Qed.
Lemma keys_arg k ins r σ keys i j : SW σ -> sub_keys k ins r σ = Some keys -> i < length (rargs r) -> j < length (rargs r) -> keys !! j = keys !! i ->
  match arg_origin k ins r i with None => j = i | Some x => exists y, arg_origin k ins r j = Some y /\ lead σ x = lead σ y end.
Proof.
  intros Hw H Hi Hj He. destruct (sub_keys_spec _ _ _ _ _ H) as [_ Hk]. destruct (Hk i Hi) as (ki & Hki & Hi'), (Hk j Hj) as (kj & Hkj & Hj'). rewrite Hki, Hkj in He. injection He as ->.
  assert (Hlt : forall x, cmap σ !! x = Some ki -> ki < length (leads σ)). { intros x Hx. apply Hw in Hx. by apply lookup_lt_is_Some_1. }
  destruct (arg_origin k ins r i) as [x|], (arg_origin k ins r j) as [y|].
  - exists y. split; [done|]. apply lead_cmap; [done | eexists; done | congruence].
  - apply Hlt in Hi'. lia.
  - apply Hlt in Hj'. lia.
  - lia.
Qed.
Lemma sub_wf r : NoDup (subkeys r) -> NoDup (rargs r) /\ (forall x, x ∈ (rdefs r).*1 -> x ∉ rargs r).
Proof. unfold subkeys. intros (H1 & H2 & H3)%NoDup_app. split; [done|]. intros x Hx Hx'. by apply (H2 x). Qed.
Lemma jargs_ext s s' k ins r : agree s s' (ins ++ rargs r) -> jargs s k ins r -> jargs s' k ins r.
Proof.
  intros Hagr Hj i a Hi. destruct (Hj i a Hi) as (j & Hja & Hm). rewrite (Hagr a) by (rewrite !elem_of_app; right; by eapply elem_of_list_lookup_2). exists j. split; [done|]. destruct (arg_origin k ins r i) as [x|] eqn:Ex; [|done]. destruct Hm as (y & Hy & Hxy). exists y. split; [done|].
  rewrite !Hagr; [done | |]; apply elem_of_app; left; by eapply arg_origin_ins.
Qed.
Lemma subkeys_arg r x : x ∈ rargs r -> x ∈ subkeys r.
Proof. intros. unfold subkeys. apply elem_of_app. by left. Qed.
Lemma subkeys_def r x : x ∈ (rdefs r).*1 -> x ∈ subkeys r.
Proof. intros. unfold subkeys. apply elem_of_app. by right. Qed.

Section Sub.
  Context (k : kind) (ins : list oid) (r : region) (f : cstate -> option cstate) (Hw : wf_region r) (Hn : NoDup (subkeys r)) (Hi : forall x, x ∈ ins -> x ∉ subkeys r) (Hf : marks r f).
  (** marking the region again after its arguments have been split *)
  Lemma remark σ σ1 σ2 : SW σ -> pre_region σ r -> SW σ1 -> ext σ σ1 (rargs r) -> f σ1 = Some σ2 -> (forall a, a ∈ rargs r -> marked σ1 a /\ lead σ1 a ∈ rargs r) ->
    SW σ2 /\ ext σ σ2 (subkeys r) /\ pre_region σ2 r /\ sub_done σ2 r /\ agree (lead σ1) (lead σ2) (ins ++ rargs r).
  Proof using Hw Hn Hi Hf.
    intros Hs Hp Hs1 He E Ha. destruct (sub_wf r Hn) as [Hna Hnd]. assert (Hp1 : pre_region σ1 r) by (eapply (pre_ext σ σ1); [done | by eapply ext_agc | done]). destruct (Hf σ1 σ2 Hs1 Hp1 E) as (G1 & G2 & G3 & G4).
    assert (Hag : forall x, x ∈ rargs r -> x ∉ (rdefs r).*1) by (intros x Hx Hx'; by apply (Hnd x)).
    split; [done|]. split; [|split; [done|split; [split; [|done]|]]].
    - eapply ext_trans; [eapply ext_weaken; [|exact He] | eapply ext_weaken; [|exact G2]]; intros x Hx; [by apply subkeys_arg | by apply subkeys_def].
    - intros a Hin. destruct (Ha a Hin) as [H1 H2]. split; [eapply ext_marked; eauto|]. rewrite (ext_lead _ _ _ _ Hs1 G2); auto.
    - intros x Hx. eapply ext_lead; [done | exact G2|]. apply elem_of_app in Hx as [Hx|Hx]; [|auto]. intros Hx'. apply (Hi x Hx). by apply subkeys_def.
  Qed.
  Lemma mark_sub_spec ch σ ch' σ' : SW σ -> pre_region σ r -> fresh_args σ r \/ sub_done σ r -> mark_sub k ins (Some (ch, σ)) (r, f) = Some (ch', σ') ->
    SW σ' /\ ext σ σ' (subkeys r) /\ pre_region σ' r /\ sub_done σ' r /\ jargs (lead σ') k ins r /\ (ch' = true \/ (ch' = ch /\ (rargs r = [] \/ σ' = σ))).
  Proof using Hw Hn Hi Hf.
    intros Hs Hp Hd H. cbn [mark_sub mbind option_bind fst snd] in H. destruct (sub_wf r Hn) as [Hna Hnd]. destruct (decide (rargs r = [])) as [Hnil|Hne].
    - rewrite Hnil in H. destruct (f σ) as [σ1|] eqn:E; cbn [mbind option_bind] in H; [|done]. injection H as <- <-. destruct (remark σ σ σ1 Hs Hp Hs (ext_refl _ _) E) as (G1 & G2 & G3 & G4 & G5).
      { rewrite Hnil. by intros a ?%elem_of_nil. }
      split; [done|]. split; [done|]. split; [done|]. split; [done|]. split; [|auto]. intros i a. by rewrite Hnil.
    - assert (H' : (keys ← sub_keys k ins r σ; '(c, σ1) ← partition (rargs r) keys σ; if (c : bool) then σ2 ← f σ1; Some (true, σ2) else Some (ch, σ1)) = Some (ch', σ')) by (by destruct (rargs r)). clear H. rename H' into H.
      destruct (sub_keys k ins r σ) as [keys|] eqn:Ek; cbn [mbind option_bind] in H; [|done]. destruct (partition (rargs r) keys σ) as [[c σ1]|] eqn:Ep; cbn [mbind option_bind] in H; [|done].
      pose proof (sub_keys_spec _ _ _ _ _ Ek) as [Hlen _]. destruct (partition_spec _ _ _ _ _ Hs Hna Hlen Ep) as (P1 & P2 & P3 & P4).
      assert (Ha : forall a, a ∈ rargs r -> marked σ1 a /\ lead σ1 a ∈ rargs r). { intros a [i Hia]%elem_of_list_lookup. destruct (P4 i a Hia) as (Q1 & j & Q2 & _). split; [done | by eapply elem_of_list_lookup_2]. }
      assert (Hj : jargs (lead σ1) k ins r).
      { intros i a Hia. destruct (P4 i a Hia) as (Q1 & j & Q2 & Q3 & _). exists j. split; [done|]. pose proof (keys_arg _ _ _ _ _ _ _ Hs Ek (lookup_lt_Some _ _ _ Hia) (lookup_lt_Some _ _ _ Q2) Q3) as Hm. destruct (arg_origin k ins r i) as [x|] eqn:Ex; [|done].
        destruct Hm as (y & Hy & Hxy). exists y. split; [done|]. rewrite !(ext_lead _ _ _ _ Hs P2); [done | |]; intros Hx; (eapply Hi; [|apply subkeys_arg; exact Hx]); by eapply arg_origin_ins. }
      destruct c.
      + destruct (f σ1) as [σ2|] eqn:E; cbn [mbind option_bind] in H; [|done]. injection H as <- <-. destruct (remark σ σ1 σ2 Hs Hp P1 P2 E Ha) as (G1 & G2 & G3 & G4 & G5).
        split; [done|]. split; [done|]. split; [done|]. split; [done|]. split; [by eapply jargs_ext | by left].
      + injection H as <- <-. specialize (P3 eq_refl). subst σ1. split; [done|]. split; [apply ext_refl|]. split; [done|]. split; [|auto]. destruct Hd as [Hd|Hd]; [|done]. exfalso.
        destruct (rargs r) as [|a l] eqn:Er; [done|]. destruct (Ha a ltac:(left)) as [[i Hm] _]. unfold fresh_args in Hd. rewrite Er in Hd. rewrite (Hd a ltac:(left)) in Hm. done.
  Qed.
  Lemma theta_loop_spec fuel σ σ' : k = Theta -> length (rres r) = S (length (rargs r)) -> SW σ -> pre_region σ r -> sub_done σ r -> jargs (lead σ) k ins r -> theta_loop fuel r f σ = Some σ' ->
    SW σ' /\ ext σ σ' (subkeys r) /\ pre_region σ' r /\ sub_done σ' r /\ jargs (lead σ') k ins r /\ jposts (lead σ') r.
  Proof using Hw Hn Hi Hf.
    intros Hk Hl. destruct (sub_wf r Hn) as [Hna Hnd]. revert σ. induction fuel as [|fuel IH]; intros σ Hs Hp Hd Hj H; cbn [theta_loop] in H; [done|].
    destruct (mapM _ _) as [keys|] eqn:Ek; cbn [mbind option_bind] in H; [|done]. destruct (partition (rargs r) keys σ) as [[c σ1]|] eqn:Ep; cbn [mbind option_bind] in H; [|done].
    assert (Hlt : length (tail (rres r)) = length (rargs r)) by (destruct (rres r); cbn in *; lia).
    assert (Hlen : length keys = length (rargs r)) by (apply mapM_length in Ek; lia). destruct (partition_spec _ _ _ _ _ Hs Hna Hlen Ep) as (P1 & P2 & P3 & P4).
    assert (Ha : forall a, a ∈ rargs r -> marked σ1 a /\ lead σ1 a ∈ rargs r). { intros a [i Hia]%elem_of_list_lookup. destruct (P4 i a Hia) as (Q1 & j & Q2 & _). split; [done | by eapply elem_of_list_lookup_2]. }
    destruct c.
    - destruct (f σ1) as [σ2|] eqn:E; cbn [mbind option_bind] in H; [|done]. destruct (remark σ σ1 σ2 Hs Hp P1 P2 E Ha) as (G1 & G2 & G3 & G4 & G5).
      assert (Hj1 : jargs (lead σ1) k ins r).
      { intros i a Hia. destruct (P4 i a Hia) as (Q1 & j & Q2 & Q3 & Q4). exists j. split; [done|]. subst k. cbn [arg_origin] in *. destruct (ins !! i) as [x|] eqn:Ex.
        - destruct (Hj i a Hia) as (j1 & J1 & J2), (Hj j _ Q2) as (j2 & J3 & J4). cbn [arg_origin] in J2, J4. rewrite Ex in J2. destruct J2 as (y & Hy & Hxy).
          assert (Hll : lead σ (lead σ1 a) = lead σ a). { destruct Hd as [Hd _]. symmetry. apply lead_cmap; [done | apply Hd; by eapply elem_of_list_lookup_2 | done]. } rewrite Hll in J3. pose proof (NoDup_lookup _ _ _ _ Hna J1 J3) as <-.
          assert (Hinl : forall z, z ∈ ins -> lead σ1 z = lead σ z). { intros z Hz. eapply ext_lead; [done | exact P2|]. intros Hz'. apply (Hi z Hz). by apply subkeys_arg. }
          destruct (ins !! j) as [y'|] eqn:Ey'; [|exfalso].
          + destruct J4 as (y2 & Hy2 & Hxy2). rewrite Hy in Hy2. injection Hy2 as <-. exists y'. split; [done|]. rewrite !Hinl; [congruence | by eapply elem_of_list_lookup_2 | by eapply elem_of_list_lookup_2].
          + subst j1. rewrite Hy in Ey'. done.
        - destruct (Hj i a Hia) as (j1 & J1 & J2), (Hj j _ Q2) as (j2 & J3 & J4). cbn [arg_origin] in J2, J4. rewrite Ex in J2. subst j1.
          assert (Hll : lead σ (lead σ1 a) = lead σ a). { destruct Hd as [Hd _]. symmetry. apply lead_cmap; [done | apply Hd; by eapply elem_of_list_lookup_2 | done]. } rewrite Hll in J3. pose proof (NoDup_lookup _ _ _ _ Hna J1 J3) as <-.
          destruct (ins !! j) as [y'|] eqn:Ey'; [|done]. destruct J4 as (y2 & Hy2 & _). rewrite Ex in Hy2. done. }
      destruct (IH σ2) as (K1 & K2 & K3 & K4 & K5 & K6); [done | done | done | by eapply jargs_ext | done|].
      split; [done|]. split; [by eapply ext_trans|]. auto.
    - injection H as <-. specialize (P3 eq_refl). subst σ1. split; [done|]. split; [apply ext_refl|]. split; [done|]. split; [done|]. split; [done|].
      intros i j a b x y H1 H2 He Hx Hy.
      assert (Hkey : forall i a x, rargs r !! i = Some a -> rres r !! S i = Some x -> keys !! i = cmap σ !! x /\ marked σ x).
      { intros i' a' x' Ha' Hx'. destruct (mapM_lookup _ _ _ i' Ek x') as (key & Hkk & Hc); [by rewrite lookup_tail|]. cbn in Hc. rewrite Hkk, Hc. split; [done | eexists; done]. }
      destruct (P4 _ _ H1) as (_ & j1 & Q1 & Q2 & _), (P4 _ _ H2) as (_ & j2 & Q3 & Q4 & _). rewrite He in Q1. pose proof (NoDup_lookup _ _ _ _ Hna Q1 Q3) as <-.
      destruct (Hkey _ _ _ H1 Hx) as [K1 M1], (Hkey _ _ _ H2 Hy) as [K2 M2]. apply lead_cmap; [done | done | congruence].
  Qed.
End Sub.
