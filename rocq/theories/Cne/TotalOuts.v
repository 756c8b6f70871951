(** Marking exit variables and arguments for the first time: it succeeds, and equal ones end up in one set. *)
From stdpp Require Import base list list_numbers fin_sets gmap.
From Verif.Rvsdg Require Import Model Spec Sem Wf WfFacts Args Divert Local.
From Verif.Ivr Require Import Model ProofsRel ProofsWf.
From Verif.Cne Require Import Model Spec ProofsSem ProofsState ProofsPart Just Pre ProofsOuts ProofsSubs TotalSimple.

Definition cong_res (s : oid -> oid) (subs : list region) (k k' : nat) : Prop := forall r, r ∈ subs -> exists x y, rres r !! k = Some x /\ rres r !! k' = Some y /\ s x = s y.
(** in some branch the exit variable is not an argument *)
Definition nonarg (subs : list region) (k : nat) : Prop := exists r x, r ∈ subs /\ rres r !! k = Some x /\ x ∉ rargs r.
Lemma cong_sym s subs k k' : cong_res s subs k k' -> cong_res s subs k' k.
Proof. intros H r Hr. destruct (H r Hr) as (x & y & ? & ? & ?). eauto. Qed.
Lemma cong_trans s subs k k' k'' : cong_res s subs k k' -> cong_res s subs k' k'' -> cong_res s subs k k''.
Proof. intros H H' r Hr. destruct (H r Hr) as (x & y & H1 & H2 & H3), (H' r Hr) as (y' & z & H4 & H5 & H6). rewrite H2 in H4. injection H4 as <-. exists x, z. split; [done|]. split; [done|]. congruence. Qed.

Section Exit.
  Context (choose : cstate -> list nat -> option nat) (Hch : forall σ l, match choose σ l with Some x => x ∈ l | None => l = [] end).
  Context (ins outs : list oid) (subs : list region) (Hn : NoDup outs) (Hi : forall x, x ∈ ins -> x ∉ outs) (Hr : forall r x, r ∈ subs -> x ∈ rres r -> x ∉ outs).
  Context (Hlen : forall r, r ∈ subs -> length (rres r) = length outs /\ length (rargs r) = length ins) (Hcon : forall r k x, r ∈ subs -> rres r !! k = Some x -> rargs r !! 0 <> Some x).
  Context (σ0 : cstate) (Hmi : forall x, x ∈ ins -> marked σ0 x) (Hmr : forall r x, r ∈ subs -> x ∈ rres r -> marked σ0 x).
  Lemma exit_var_set_total σ k l sh : (forall x, x ∈ ins -> marked σ x) -> k < length outs -> (forall r, r ∈ l -> r ∈ subs) -> exists inv, exit_var_set σ ins k l sh = Some inv.
  Proof using Hlen Hcon.
    clear -Hlen Hcon. intros Hm Hk. revert sh. induction l as [|r l IH]; intros sh Hl; cbn [exit_var_set]; [by eexists|]. destruct (Hlen r (Hl r ltac:(left))) as [L1 L2]. destruct (lookup_lt_is_Some_2 (rres r) k) as [x Hx]; [lia|]. rewrite Hx. cbn [mbind option_bind].
    destruct (position x (rargs r)) as [i|] eqn:Ep; [|by eexists]. apply position_lookup in Ep. destruct i as [|i]; [by destruct (Hcon r k x (Hl r ltac:(left)) Hx)|]. cbn [arg_origin]. destruct (lookup_lt_is_Some_2 ins (S i)) as [z Hz]; [rewrite <-L2; by eapply lookup_lt_Some|]. rewrite Hz. cbn [mbind option_bind].
    destruct (Hm z) as [j Hj]; [by eapply elem_of_list_lookup_2|]. rewrite Hj. cbn [mbind option_bind]. assert (Hl' : forall r, r ∈ l -> r ∈ subs) by (intros; apply Hl; by right). destruct sh as [j'|]; [case_decide; [by apply IH | by eexists] | by apply IH].
  Qed.
  Lemma exit_congruent_iff σ k k' : SW σ -> (forall r x, r ∈ subs -> x ∈ rres r -> marked σ x) -> exit_congruent σ subs k k' = true <-> cong_res (lead σ) subs k k'.
  Proof using.
    clear. intros Hw Hm. split; [intros H r Hin; by apply (exit_congruent_spec subs σ k k')|]. intros H. unfold exit_congruent. apply forallb_forall. intros r Hin%elem_of_list_In. destruct (H r Hin) as (x & y & Hx & Hy & He). rewrite Hx, Hy. unfold same_set.
    assert (Mx : marked σ x) by (eapply Hm; [exact Hin | by eapply elem_of_list_lookup_2]). assert (My : marked σ y) by (eapply Hm; [exact Hin | by eapply elem_of_list_lookup_2]).
    rewrite (lead_inj _ _ _ Hw Mx My He). destruct My as [j ->]. by apply bool_decide_eq_true.
  Qed.
  Lemma cong_ext σ σ' k k' : SW σ -> ext σ σ' outs -> cong_res (lead σ') subs k k' <-> cong_res (lead σ) subs k k'.
  Proof using Hr.
    clear -Hr. intros Hw He. assert (Hx : forall r x i, r ∈ subs -> rres r !! i = Some x -> lead σ' x = lead σ x). { intros r x i Hin Hx. eapply ext_lead; [done | exact He|]. eapply Hr; [done|]. by eapply elem_of_list_lookup_2. }
    split; intros H r Hin; destruct (H r Hin) as (x & y & H1 & H2 & H3); exists x, y; split; try done; split; try done; rewrite (Hx _ _ _ Hin H1), (Hx _ _ _ Hin H2) in *; done.
  Qed.
  Record tinv (P : list (nat * oid)) (table : list nat) (σ : cstate) : Prop := TInv {
    t_sw : SW σ; t_ext : ext σ0 σ outs;
    t_marked : forall k o, (k, o) ∈ P -> marked σ o;
    t_fresh : forall o, o ∈ outs -> o ∉ P.*2 -> cmap σ !! o = None;
    t_tab : forall k, k ∈ table -> exists o, (k, o) ∈ P /\ outs !! k = Some o /\ lead σ o = o;
    t_rep : forall k o, (k, o) ∈ P -> nonarg subs k -> exists k0 o0, k0 ∈ table /\ outs !! k0 = Some o0 /\ cong_res (lead σ) subs k k0 /\ lead σ o = o0;
    t_uniq : forall k k', k ∈ table -> k' ∈ table -> cong_res (lead σ) subs k k' -> k = k' }.
  Lemma tinv_step P table σ k o : tinv P table σ -> (forall k o, (k, o) ∈ P -> outs !! k = Some o) -> outs !! k = Some o -> o ∉ P.*2 ->
    exists table' σ', mark_exit_var choose ins outs subs (Some (table, σ)) (k, o) = Some (table', σ') /\ tinv (P ++ [(k, o)]) table' σ'.
  Proof using All.
    intros [T1 T2 T3 T4 T5 T6 T7] HP Ho Hnew. assert (Hout : o ∈ outs) by (by eapply elem_of_list_lookup_2). pose proof (T4 o Hout Hnew) as Hf.
    assert (Hmi' : forall x, x ∈ ins -> marked σ x) by (intros x Hx; eapply ext_marked; [exact T2 | auto | auto]). assert (Hmr' : forall r x, r ∈ subs -> x ∈ rres r -> marked σ x) by (intros r x Hin Hx; eapply ext_marked; [exact T2 | eauto | eauto]).
    assert (Hfin : forall σ' table', SW σ' -> ext σ σ' [o] -> marked σ' o ->
      (table' = table /\ (nonarg subs k -> exists k0 o0, k0 ∈ table /\ outs !! k0 = Some o0 /\ cong_res (lead σ) subs k k0 /\ lead σ' o = o0) \/
       table' = k :: table /\ lead σ' o = o /\ forall k', k' ∈ table -> ~ cong_res (lead σ) subs k k') -> tinv (P ++ [(k, o)]) table' σ').
    { intros σ1 tb Hw He Hm Htb. assert (He' : ext σ σ1 outs) by (eapply ext_weaken; [|exact He]; intros x; rewrite elem_of_list_singleton; by intros ->).
      assert (Hne : forall k' o', (k', o') ∈ P -> o' <> o) by (intros k' o' Hin ->; apply Hnew; apply elem_of_list_fmap; by exists (k', o)).
      assert (Hlo : forall k' o', (k', o') ∈ P -> lead σ1 o' = lead σ o') by (intros k' o' Hin; eapply ext_lead; [done | exact He | rewrite elem_of_list_singleton; by eapply Hne]).
      assert (Hcr : forall k k', cong_res (lead σ1) subs k k' <-> cong_res (lead σ) subs k k') by (intros; by apply cong_ext).
      assert (Ht5 : forall k', k' ∈ table -> exists o0, (k', o0) ∈ P ++ [(k, o)] /\ outs !! k' = Some o0 /\ lead σ1 o0 = o0). { intros k' Hk'. destruct (T5 k' Hk') as (o0 & G1 & G2 & G3). exists o0. split; [apply elem_of_app; by left|]. split; [done|]. by rewrite (Hlo _ _ G1). }
      assert (Ht6 : forall k' o', (k', o') ∈ P -> nonarg subs k' -> exists k0 o0, k0 ∈ table /\ outs !! k0 = Some o0 /\ cong_res (lead σ1) subs k' k0 /\ lead σ1 o' = o0). { intros k' o' Hin Hna. destruct (T6 _ _ Hin Hna) as (k0 & o0 & G1 & G2 & G3 & G4). exists k0, o0. rewrite Hcr, (Hlo _ _ Hin). done. }
      split.
      - done.
      - by eapply ext_trans.
      - intros k' o' [Hin|[= -> ->]%elem_of_list_singleton]%elem_of_app; [|done]. eapply ext_marked; [exact He | rewrite elem_of_list_singleton; by eapply Hne | by eapply T3].
      - intros x Hx Hnx. rewrite fmap_app, not_elem_of_app in Hnx. destruct Hnx as [N1 N2]. cbn in N2. rewrite elem_of_list_singleton in N2. rewrite (proj2 He); [by apply T4 | by rewrite elem_of_list_singleton].
      - destruct Htb as [[-> _]|(-> & Hl & _)]; [done|]. intros k' [->|Hk']%elem_of_cons; [exists o; split; [apply elem_of_app; right; left | done] | auto].
      - intros k' o' [Hin|[= -> ->]%elem_of_list_singleton]%elem_of_app Hna.
        + destruct (Ht6 _ _ Hin Hna) as (k0 & o0 & G1 & G). exists k0, o0. split; [|done]. destruct Htb as [[-> _]|(-> & _)]; [done | by right].
        + destruct Htb as [[-> Hex]|(-> & Hl & _)].
          * destruct (Hex Hna) as (k0 & o0 & G1 & G2 & G3 & G4). exists k0, o0. rewrite Hcr. done.
          * exists k, o. split; [left|]. split; [done|]. split; [|done]. intros r Hin. destruct (Hlen r Hin) as [L1 _]. destruct (lookup_lt_is_Some_2 (rres r) k) as [x Hx]; [rewrite L1; by eapply lookup_lt_Some|]. eauto.
      - intros a b. rewrite Hcr. destruct Htb as [[-> _]|(-> & Hl & Hno)]; [by apply T7|]. intros [->|Ha]%elem_of_cons [->|Hb]%elem_of_cons Hc; [done | by destruct (Hno b) | destruct (Hno a); [done | by apply cong_sym] | by apply T7]. }
    cbn [mark_exit_var mbind option_bind]. rewrite Hf. destruct (exit_var_set_total σ k subs None Hmi') as [inv Hinv]; [by eapply lookup_lt_Some | done|]. rewrite Hinv. cbn [mbind option_bind]. destruct inv as [i|].
    - rewrite add_follower_fresh by done. cbn [mbind option_bind]. eexists table, _. split; [done|].
      assert (Hsi : is_Some (leads σ !! i)). { destruct subs as [|r0 rs] eqn:Es; [done|]. apply exit_var_set_spec in Hinv as [_ Hinv]. destruct (Hinv r0 ltac:(left)) as (_ & _ & z & _ & _ & _ & Hz). by apply T1 in Hz. }
      destruct (add_follower_spec _ _ _ _ T1 Hsi (add_follower_fresh i o σ Hf)) as (G1 & G2 & G3 & G4). apply Hfin; [done | done | by eexists|]. left. split; [done|]. intros (r & x & Hin & Hx & Hnx). exfalso. apply exit_var_set_spec in Hinv as [_ Hinv]. destruct (Hinv r Hin) as (x' & idx & z & E1 & E2 & _). rewrite Hx in E1. injection E1 as <-. apply Hnx. by eapply elem_of_list_lookup_2.
    - unfold lookup_exit. match goal with |- context [choose σ ?l] => set (L := l) end. pose proof (Hch σ L) as HL. destruct (choose σ L) as [k'|].
      + unfold L in HL. apply elem_of_list_filter in HL as [HL1 HL2]. apply exit_congruent_iff in HL1; [|done | done]. destruct (T5 k' HL2) as (o' & G1 & G2 & G3). rewrite G2. cbn [mbind option_bind]. destruct (T3 _ _ G1) as [i Hi']. rewrite Hi'. cbn [mbind option_bind]. rewrite add_follower_fresh by done. cbn [mbind option_bind]. eexists table, _. split; [done|].
        pose proof (lead_set _ _ _ T1 Hi') as Hls. rewrite G3 in Hls. destruct (add_follower_lead _ _ _ _ _ T1 Hls (add_follower_fresh i o σ Hf)) as (F1 & F2 & F3 & F4). apply Hfin; [done | done | done|]. left. split; [done|]. intros _. exists k', o'. done.
      + eexists (k :: table), _. split; [done|]. destruct (get_or_create_lead σ o T1) as (F1 & F2 & F3 & F4). apply Hfin; [done | done | done|]. right. split; [done|]. split; [done|]. intros k' Hk' Hc. assert (k' ∈ L); [|rewrite HL in *; by apply elem_of_nil in H]. unfold L. apply elem_of_list_filter. split; [|done]. by apply exit_congruent_iff.
  Qed.
  Lemma tinv_fold L P table σ : tinv P table σ -> NoDup (P ++ L).*2 -> (forall k o, (k, o) ∈ P ++ L -> outs !! k = Some o) ->
    exists table' σ', foldl (mark_exit_var choose ins outs subs) (Some (table, σ)) L = Some (table', σ') /\ tinv (P ++ L) table' σ'.
  Proof using All.
    revert P table σ. induction L as [|[k o] L IH]; intros P table σ Hp Hnd HP; cbn [foldl]; [rewrite app_nil_r; eauto|].
    destruct (tinv_step P table σ k o Hp) as (tb & σ1 & E & Ht).
    - intros k' o' Hin. apply HP. apply elem_of_app. by left.
    - apply HP. apply elem_of_app. right. left.
    - rewrite fmap_app in Hnd. apply NoDup_app in Hnd as (_ & Hd & _). intros Hin. apply (Hd o Hin). left.
    - rewrite E. rewrite cons_middle, app_assoc in HP, Hnd |- *. by apply IH.
  Qed.
  Lemma mark_exit_vars_total : SW σ0 -> (forall o, o ∈ outs -> cmap σ0 !! o = None) -> exists σ', mark_exit_vars choose ins outs subs σ0 = Some σ' /\ (forall o, o ∈ outs -> marked σ' o) /\
    forall k k' o o', outs !! k = Some o -> outs !! k' = Some o' -> cong_res (lead σ') subs k k' -> nonarg subs k -> nonarg subs k' -> lead σ' o = lead σ' o'.
  Proof using All.
    intros Hw Hu. destruct (tinv_fold (imap pair outs) [] [] σ0) as (tb & σ' & E & [T1 T2 T3 T4 T5 T6 T7]).
    - split; [done | apply ext_refl | by intros ?? ?%elem_of_nil | auto | by intros ? ?%elem_of_nil | by intros ?? ?%elem_of_nil | by intros ?? ?%elem_of_nil].
    - rewrite app_nil_l. by rewrite imap_pair_snd.
    - intros k o. rewrite app_nil_l. by rewrite imap_pair_elem.
    - rewrite app_nil_l in *. exists σ'. unfold mark_exit_vars. rewrite E. cbn [mbind option_bind]. split; [done|]. split; [intros o [k Hk]%elem_of_list_lookup; eapply T3; by rewrite imap_pair_elem|].
      intros k k' o o' Ho Ho' Hc Hk Hk'. apply imap_pair_elem in Ho, Ho'. destruct (T6 _ _ Ho Hk) as (k0 & o0 & A1 & A2 & A3 & A4), (T6 _ _ Ho' Hk') as (k1 & o1 & B1 & B2 & B3 & B4).
      assert (k0 = k1) as ->. { apply T7; [done | done|]. eapply cong_trans; [apply cong_sym; exact A3|]. eapply cong_trans; [exact Hc | exact B3]. } congruence.
  Qed.
End Exit.

(** the arguments of a region that was not marked yet *)
Lemma partition_total args keys σ : SW σ -> NoDup args -> length keys = length args -> (forall a, a ∈ args -> cmap σ !! a = None) ->
  exists c σ', partition args keys σ = Some (c, σ') /\ forall i j a b, args !! i = Some a -> args !! j = Some b -> keys !! i = keys !! j -> lead σ' a = lead σ' b.
Proof.
  intros Hw Hn Hl Hu. unfold partition.
  assert (Hz : (zip args keys).*1 = args) by (apply fst_zip; lia).
  assert (HF : forall l don new σ1, SW σ1 -> NoDup (don ++ l).*1 -> (forall a, a ∈ l.*1 -> cmap σ1 !! a = None) -> (forall c key i, ((c, key), i) ∈ new -> c = None /\ is_Some (leads σ1 !! i)) ->
    (forall a key, (a, key) ∈ don -> exists i, cmap σ1 !! a = Some i /\ lookup_key (None, key) new = Some i) ->
    exists new' σ', foldl partition_step (Some (new, σ1)) l = Some (new', σ') /\ forall a key, (a, key) ∈ don ++ l -> exists i, cmap σ' !! a = Some i /\ lookup_key (None, key) new' = Some i).
  { clear. induction l as [|[a key] l IH]; intros don new σ1 Hw Hn Hu Hnew Hd; cbn [foldl]; [rewrite app_nil_r; eauto|].
    assert (Ha : a ∉ don.*1). { rewrite fmap_app in Hn. apply NoDup_app in Hn as (_ & Hd' & _). intros Hin. apply (Hd' a Hin). left. }
    assert (Hal : a ∉ l.*1). { rewrite fmap_app in Hn. apply NoDup_app in Hn as (_ & _ & Hn). rewrite fmap_cons in Hn. by apply NoDup_cons in Hn as [? _]. }
    pose proof (Hu a ltac:(left)) as Hua. cbn [partition_step mbind option_bind fst snd]. rewrite Hua.
    destruct (lookup_key (None, key) new) as [i|] eqn:El.
    - rewrite decide_False by done. rewrite add_follower_fresh by done. cbn [mbind option_bind]. pose proof (lookup_key_Some _ _ _ El) as Hin. destruct (Hnew _ _ _ Hin) as [_ Hsi]. destruct (add_follower_spec _ _ _ _ Hw Hsi (add_follower_fresh i a σ1 Hua)) as (G1 & G2 & G3 & G4).
      rewrite cons_middle, app_assoc in Hn |- *. apply IH; [done | done | | done |].
      + intros b Hb. cbn [cmap]. rewrite lookup_insert_ne by (by intros ->). apply Hu. by right.
      + cbn [cmap]. intros b kb [Hb|[= -> ->]%elem_of_list_singleton]%elem_of_app; [|exists i; by rewrite lookup_insert]. destruct (Hd _ _ Hb) as (ib & ? & ?). exists ib. rewrite lookup_insert_ne; [done|]. intros ->. apply Ha. apply elem_of_list_fmap. by exists (b, kb).
    - destruct (get_or_create σ1 a) as [i σ2] eqn:E. pose proof (get_or_create_spec _ _ _ _ Hw E) as (G1 & G2 & G3 & G4 & G5 & G6). rewrite cons_middle, app_assoc in Hn |- *. apply IH; [done | done | | |].
      + intros b Hb. rewrite (proj2 G2); [apply Hu; by right | rewrite elem_of_list_singleton; by intros ->].
      + intros c key' j [[= -> -> ->]|Hj]%elem_of_cons; [split; [done | by eexists]|]. destruct (Hnew _ _ _ Hj) as [? [o Ho]]. split; [done|]. exists o. by eapply prefix_lookup; [|apply G2].
      + intros b kb [Hb|[= -> ->]%elem_of_list_singleton]%elem_of_app.
        * destruct (Hd _ _ Hb) as (ib & H1 & H2). exists ib. split; [rewrite (proj2 G2); [done|]; rewrite elem_of_list_singleton; intros ->; apply Ha; apply elem_of_list_fmap; by exists (a, kb)|].
          unfold lookup_key in *. cbn [list_find fst]. case_decide as Hk; [|clear El; revert H2; destruct (list_find _ new) as [[? []]|]; cbn; done]. injection Hk as ->. rewrite H2 in El. done.
        * exists i. split; [done|]. unfold lookup_key. cbn [list_find fst]. by rewrite decide_True. }
  destruct (HF (zip args keys) [] [] σ) as (new' & σ' & E & Hd); [done | by rewrite app_nil_l, Hz | by rewrite Hz | by intros ??? ?%elem_of_nil | by intros ?? ?%elem_of_nil|]. rewrite E. cbn [mbind option_bind]. eexists _, σ'. split; [done|]. rewrite app_nil_l in Hd.
  intros i j a b Ha Hb Hk. destruct (lookup_lt_is_Some_2 keys i) as [key Hki]; [apply lookup_lt_Some in Ha; lia|]. rewrite Hki in Hk. symmetry in Hk.
  destruct (Hd a key) as (ia & A1 & A2). { apply elem_of_list_lookup. exists i. apply lookup_zip_with_Some. eauto. } destruct (Hd b key) as (ib & B1 & B2). { apply elem_of_list_lookup. exists j. apply lookup_zip_with_Some. eauto. }
  rewrite A2 in B2. injection B2 as <-. assert (Hp : partition args keys σ = Some (negb (bool_decide (length (leads σ') = length (leads σ))), σ')) by (unfold partition; by rewrite E).
  destruct (partition_spec _ _ _ _ _ Hw Hn Hl Hp) as (P1 & _). apply lead_cmap; [done | by eexists | congruence].
Qed.
