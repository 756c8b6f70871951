(** The converted function is a well-formed graph. *)
From stdpp Require Import base list list_numbers fin_sets gmap.
From Verif.Rvsdg Require Import Model Spec Sem Wf WfFacts Args.
From Verif.Construct Require Import Model Spec ProofsSets ProofsSim.

Section ATreeInd.
  Context (P : atree -> Prop) (HB : forall l, P (ABlock l)) (HL : forall l, Forall P l -> P (ALinear l)) (HBr : forall i o l, Forall P l -> P (ABranch i o l)) (HLo : forall vs b, P b -> P (ALoop vs b)).
  Fixpoint atree_ind' (t : atree) : P t.
  Proof using HB HL HBr HLo.
    destruct t as [l|l|i o l|vs b]; [apply HB | apply HL | apply HBr | apply HLo; apply atree_ind'].
    - induction l as [|t l IH]; [constructor | constructor; [apply atree_ind' | exact IH]].
    - induction l as [|t l IH]; [constructor | constructor; [apply atree_ind' | exact IH]].
  Defined.
End ATreeInd.

Definition within (s s' : nat) (l : list nat) : Prop := NoDup l /\ forall x, x ∈ l -> s <= x < s'.
Lemma within_app s s1 s2 s3 a b : s <= s1 <= s2 -> s2 <= s3 -> within s s1 a -> within s2 s3 b -> within s s3 (a ++ b).
Proof.
  intros Hs Hs' [Ha1 Ha2] [Hb1 Hb2]. split.
  - apply NoDup_app. split; [done|]. split; [|done]. intros x Hx Hx'. specialize (Ha2 x Hx). specialize (Hb2 x Hx'). lia.
  - intros x [Hx|Hx]%elem_of_app; [specialize (Ha2 x Hx) | specialize (Hb2 x Hx)]; lia.
Qed.
Lemma within_rev s s1 s2 s3 a b : s <= s1 <= s2 -> s2 <= s3 -> within s s1 a -> within s2 s3 b -> within s s3 (b ++ a).
Proof.
  intros Hs Hs' Ha Hb. destruct (within_app s s1 s2 s3 a b Hs Hs' Ha Hb) as [H1 H2]. split; [by rewrite (Permutation_app_comm b a)|]. intros x Hx. apply H2. rewrite elem_of_app in *. tauto.
Qed.
Lemma within_nil s s' : within s s' [].
Proof. split; [constructor|]. by intros x ?%elem_of_nil. Qed.
Lemma within_seq s k : within s (s + k) (seq s k).
Proof. split; [apply NoDup_seq|]. intros x Hx%elem_of_seq. lia. Qed.
Lemma within_mono s s' t t' l : t <= s -> s' <= t' -> within s s' l -> within t t' l.
Proof. intros H1 H2 [Ha Hb]. split; [done|]. intros x Hx. specialize (Hb x Hx). lia. Qed.
Lemma within_cons s s1 s' x l : s <= x < s1 -> s1 <= s' -> within s1 s' l -> within s s' (x :: l).
Proof. intros H1 H2 H3. apply (within_app s s1 s1 s' [x] l); [lia | lia | | done]. split; [apply NoDup_singleton|]. intros y ->%elem_of_list_singleton. lia. Qed.

Definition keys (ns : list node) : list nat := mjoin (map (fun n => (ndefs n).*1) ns).
Definition ids (ns : list node) : list nat := mjoin (map node_ids ns).
Definition made (s s' : nat) (ns : list node) : Prop := s <= s' /\ within s s' (keys ns) /\ within s s' (ids ns).
Definition rkeys (rs : list region) : list nat := mjoin (map (fun r => rargs r ++ (rdefs r).*1) rs).
Definition rids (rs : list region) : list nat := mjoin (map region_ids rs).
Definition rmade (s s' : nat) (rs : list region) : Prop := s <= s' /\ within s s' (rkeys rs) /\ within s s' (rids rs).
Lemma mjoin_app' {A B} (f : A -> list B) a b : mjoin (map f (a ++ b)) = mjoin (map f a) ++ mjoin (map f b).
Proof. induction a as [|x a IH]; [done|]. cbn [app map mjoin list_join]. unfold mjoin in *. cbn [list_join]. by rewrite IH, app_assoc. Qed.
Lemma keys_app a b : keys (a ++ b) = keys a ++ keys b.
Proof. apply mjoin_app'. Qed.
Lemma ids_app a b : ids (a ++ b) = ids a ++ ids b.
Proof. apply mjoin_app'. Qed.
Lemma own_app a b : own (a ++ b) = own a ++ own b.
Proof. apply mjoin_app'. Qed.
Lemma made_nil s : made s s [].
Proof. split; [done|]. split; apply within_nil. Qed.
Lemma made_app s s1 s2 a b : made s s1 a -> made s1 s2 b -> made s s2 (a ++ b).
Proof. intros (H1 & H2 & H3) (G1 & G2 & G3). split; [lia|]. rewrite keys_app, ids_app. split; (eapply within_app; [| |eassumption|eassumption]; lia). Qed.
Lemma keys_one id k ins outs subs : keys [Node id k ins outs subs] = outs ++ rkeys subs.
Proof. unfold keys. cbn [map]. unfold mjoin, list_join. rewrite app_nil_r. apply nkeys_eq. Qed.
Lemma ids_one id k ins outs subs : ids [Node id k ins outs subs] = id :: rids subs.
Proof. unfold ids. cbn [map]. unfold mjoin, list_join. rewrite app_nil_r. done. Qed.
Lemma own_one id k ins outs subs : own [Node id k ins outs subs] = outs.
Proof. unfold own. cbn [map nouts]. unfold mjoin, list_join. apply app_nil_r. Qed.
Lemma rkeys_cons args res ns rs : rkeys (Region args res ns :: rs) = args ++ keys ns ++ rkeys rs.
Proof. unfold rkeys. cbn [map rargs]. rewrite rkeys_eq. unfold mjoin. cbn [list_join]. by rewrite app_assoc. Qed.
Lemma rids_cons args res ns rs : rids (Region args res ns :: rs) = ids ns ++ rids rs.
Proof. done. Qed.

Lemma wf_list_app f av a b : wf_list f av (a ++ b) <-> wf_list f av a /\ wf_list f (av ++ own a) b.
Proof.
  revert av. induction a as [|n a IH]; intros av; cbn [app wf_list].
  - rewrite app_nil_r. tauto.
  - rewrite IH. unfold own. cbn [map]. unfold mjoin. cbn [list_join]. rewrite <-!app_assoc. tauto.
Qed.
Definition good (av : list nat) (m : gmap nat nat) : Prop := forall v o, m !! v = Some o -> o ∈ av.
Lemma good_sub av av' m : good av m -> (forall x, x ∈ av -> x ∈ av') -> good av' m.
Proof. intros H Hs v o Ho. apply Hs, (H v), Ho. Qed.
Lemma good_all av m vs os : good av m -> mapM (fun v => m !! v) vs = Some os -> Forall (fun x => x ∈ av) os.
Proof. intros H Hm%mapM_Some. induction Hm as [|v o vs os Ho Hm IH]; constructor; [by apply (H v) | done]. Qed.
Lemma good_add av m vs os : good av m -> (forall o, o ∈ os -> o ∈ av) -> length os = length vs -> good av (add_all vs os m).
Proof.
  intros H Ho Hl v o Hv. destruct (add_all_spec (V:=unit) vs os m v Hl) as [(_ & E & _)|(i & o' & _ & E1 & E2 & _)].
  - rewrite E in Hv. by apply (H v).
  - rewrite E2 in Hv. injection Hv as <-. apply Ho. by eapply elem_of_list_lookup_2.
Qed.
Lemma good_empty av : good av ∅.
Proof. intros v o H. by rewrite lookup_empty in H. Qed.

Section Wf.
  Context (order : gset nat -> list nat) (undef : nat -> nat) (match1 : nat).
  Local Notation convert := (convert order undef match1).
  Definition fine (s : nat) (av : list nat) (x : list node * gmap nat nat * nat) : Prop := let '(ns, m, s') := x in made s s' ns /\ wf_list wf_node av ns /\ good (av ++ own ns) m.
  Lemma fine_nil s av m : good av m -> fine s av ([], m, s).
  Proof using. intros H. split; [apply made_nil|]. split; [done|]. cbn. by rewrite app_nil_r. Qed.
  Lemma fine_app s av ns m1 s1 ns' m' s' : fine s av (ns, m1, s1) -> fine s1 (av ++ own ns) (ns', m', s') -> fine s av (ns ++ ns', m', s').
  Proof using. intros (H1 & H2 & H3) (G1 & G2 & G3). split; [by eapply made_app|]. split; [by apply wf_list_app|]. by rewrite own_app, app_assoc. Qed.
  Lemma fine_tac x m s ns m' s' av : convert_tac match1 x m s = Some (ns, m', s') -> good av m -> fine s av (ns, m', s').
  Proof using.
    intros Hc Hg. destruct x as [l r|p a b r|p|op ops res]; cbn [convert_tac] in Hc.
    - destruct (m !! r) as [o|] eqn:Er; [|done]. injection Hc as <- <- <-. apply fine_nil. apply (good_add av m [l] [o]); [done | | done]. intros x ->%elem_of_list_singleton. by apply (Hg r).
    - destruct (m !! p) as [op|] eqn:Ep; [|done]. destruct (m !! b) as [ob|] eqn:Eb; [|done]. destruct (m !! a) as [oa|] eqn:Ea; [|done]. injection Hc as <- <- <-.
      apply Hg in Ep, Eb, Ea. split; [|split].
      + split; [lia|]. unfold keys, ids. cbn. split; (split; [repeat (apply NoDup_cons_2; [rewrite ?elem_of_cons; intros H; repeat (destruct H as [H|H]; [lia|]); by apply elem_of_nil in H|]); apply NoDup_nil_2|]); intros x Hx; rewrite !elem_of_cons, elem_of_nil in Hx; lia.
      + cbn. split; [by repeat constructor|]. split; [done|]. split; [|split; [|done]].
        * repeat (apply List.Forall_cons); try apply List.Forall_nil; rewrite ?elem_of_app, ?elem_of_list_singleton; auto.
        * split; [split; [done | by repeat constructor]|]. repeat split; repeat (apply List.Forall_cons); try apply List.Forall_nil; rewrite !elem_of_cons; auto.
      + apply (good_add _ m [r] [s + 9]); [apply (good_sub av); [done|]; intros x Hx; apply elem_of_app; auto | | done]. intros x ->%elem_of_list_singleton. apply elem_of_app. right. cbn. right. left.
    - injection Hc as <- <- <-. by apply fine_nil.
    - destruct (mapM (fun v => m !! v) ops) as [os|] eqn:Eos; [|done]. cbn [mbind option_bind fresh] in Hc. injection Hc as <- <- <-. split; [|split].
      + split; [lia|]. rewrite keys_one, ids_one. unfold rkeys, rids. cbn [map]. split.
        * apply (within_mono (S s) (S s + length res)); [lia | lia|]. change (mjoin []) with (@nil nat). rewrite app_nil_r. apply within_seq.
        * change (mjoin []) with (@nil nat). apply (within_cons s (S s)); [lia | lia | apply within_nil].
      + cbn [wf_list nins]. split; [by apply (good_all av m ops)|]. done.
      + rewrite own_one. apply good_add; [apply (good_sub av); [done|]; intros x Hx; apply elem_of_app; auto | | by rewrite seq_length]. intros o Ho. apply elem_of_app. auto.
  Qed.
  Lemma fine_block l m s ns m' s' av : convert_block match1 l m s = Some (ns, m', s') -> good av m -> fine s av (ns, m', s').
  Proof using.
    revert m s ns av. induction l as [|x l IH]; intros m s ns av; cbn [convert_block]; [intros [= <- <- <-]; apply fine_nil|]. intros Hc Hg.
    destruct (convert_tac match1 x m s) as [[[ns1 m1] s1]|] eqn:E1; [|done]. cbn in Hc. destruct (convert_block match1 l m1 s1) as [[[ns2 m2] s2]|] eqn:E2; [|done]. cbn in Hc. injection Hc as <- <- <-.
    pose proof (fine_tac x m s ns1 m1 s1 av E1 Hg) as H1. eapply fine_app; [exact H1|]. apply (IH m1); [done|]. apply H1.
  Qed.
  Definition conv_ok (a : atree) : Prop := forall pa m s ns m' s' av, convert pa a m s = Some (ns, m', s') -> good av m -> fine s av (ns, m', s').
  Lemma fine_seq l : Forall conv_ok l -> forall pa m s ns m' s' av, convert_seq convert pa l m s = Some (ns, m', s') -> good av m -> fine s av (ns, m', s').
  Proof using.
    induction 1 as [|a l Ha Hl IH]; intros pa m s ns m' s' av; cbn [convert_seq]; [intros [= <- <- <-]; apply fine_nil|]. intros Hc Hg.
    destruct (convert pa a m s) as [[[ns1 m1] s1]|] eqn:E1; [|done]. cbn in Hc. destruct (convert_seq convert (Some a) l m1 s1) as [[[ns2 m2] s2]|] eqn:E2; [|done]. cbn in Hc. injection Hc as <- <- <-.
    pose proof (Ha _ _ _ _ _ _ av E1 Hg) as H1. eapply fine_app; [exact H1|]. apply (IH (Some a) m1); [done|]. apply H1.
  Qed.
  Lemma fine_cases l vs xs : Forall conv_ok l -> forall s rs s', convert_cases convert vs xs l s = Some (rs, s') ->
    rmade s s' rs /\ Forall wf_region rs /\ Forall (fun r => length (rargs r) = S (length vs) /\ length (rres r) = length xs) rs.
  Proof using.
    induction 1 as [|a l Ha Hl IH]; intros s rs s'; cbn [convert_cases].
    - intros [= <- <-]. split; [split; [done|]; split; apply within_nil|]. split; constructor.
    - cbn [fresh]. intros H. destruct (convert None a (add_all vs (seq (S s) (length vs)) ∅) (S s + length vs)) as [[[ns m] s1]|] eqn:E1; [|done]. cbn [mbind option_bind] in H.
      destruct (mapM (fun v => m !! v) xs) as [res|] eqn:E2; [|done]. cbn [mbind option_bind] in H.
      destruct (convert_cases convert vs xs l s1) as [[rs' s2]|] eqn:E3; [|done]. cbn [mbind option_bind] in H. injection H as <- <-.
      destruct (IH _ _ _ E3) as ((G1 & G2 & G3) & G4 & G5). replace (s + length vs - length vs) with s by lia.
      destruct (Ha None _ _ _ _ _ (s :: seq (S s) (length vs)) E1) as ((F1 & F2 & F3) & F4 & F5).
      { apply good_add; [apply good_empty | | by rewrite seq_length]. intros o Ho. by right. }
      assert (Hargs : within s (S s + length vs) (s :: seq (S s) (length vs))) by (apply (within_cons s (S s)); [lia | lia | apply within_seq]).
      pose proof (mapM_lookup _ _ _ E2) as [Hlr _]. split; [|split].
      + split; [lia|]. rewrite rkeys_cons, rids_cons. split.
        * eapply within_app; [| |exact Hargs|eapply within_app; [| |exact F2|exact G2]]; lia.
        * apply (within_mono (S s + length vs) s2); [lia | lia|]. eapply within_app; [| |exact F3|exact G3]; lia.
      + constructor; [|done]. cbn [wf_region]. split; [done|]. by apply (good_all _ m xs).
      + constructor; [|done]. cbn [rargs rres length]. rewrite seq_length. auto.
  Qed.
  Lemma fine_missing vs m s ns m' s' av : define_missing undef vs m s = (ns, m', s') -> good av m -> fine s av (ns, m', s').
  Proof using.
    revert m s ns av. induction vs as [|v vs IH]; intros m s ns av; cbn [define_missing]; [intros [= <- <- <-]; apply fine_nil|].
    destruct (m !! v) as [o|]; [apply IH|]. destruct (define_missing undef vs (<[v := S s]> m) (S (S s))) as [[ns1 m1] s1] eqn:E1. intros [= <- <- <-] Hg.
    change (Node s (Simple (undef v)) [] [S s] [] :: ns1) with ([Node s (Simple (undef v)) [] [S s] []] ++ ns1).
    assert (H0 : fine s av ([Node s (Simple (undef v)) [] [S s] []], <[v := S s]> m, S (S s))).
    { split; [|split].
      - split; [lia|]. rewrite keys_one, ids_one. unfold rkeys, rids. cbn [map]. change (mjoin []) with (@nil nat). split; [apply (within_cons s (S (S s)))|apply (within_cons s (S (S s)))]; try lia; apply within_nil.
      - cbn. split; [constructor|]. done.
      - rewrite own_one. apply (good_add _ m [v] [S s]); [apply (good_sub av); [done|]; intros x Hx; apply elem_of_app; auto | | done]. intros o Ho. apply elem_of_app. auto. }
    eapply fine_app; [exact H0|]. apply (IH (<[v := S s]> m)); [done|]. apply H0.
  Qed.
  Lemma fine_convert a : conv_ok a.
  Proof using.
    induction a as [l|l IH|ins outs l IH|vs b IH] using atree_ind'; intros pa m s ns m' s' av Hc Hg; cbn [Model.convert] in Hc.
    - by eapply fine_block.
    - by eapply fine_seq.
    - destruct (pa ≫= predicate_of) as [p|]; [|done]. cbn [mbind option_bind] in Hc. destruct (m !! p) as [op|] eqn:Eop; [|done]. cbn [mbind option_bind] in Hc.
      destruct (mapM (fun v => m !! v) (order ins)) as [os|] eqn:Eos; [|done]. cbn [mbind option_bind] in Hc.
      destruct (convert_cases convert (order ins) (order outs) l (S s)) as [[rs s1]|] eqn:Ers; [|done]. cbn [mbind option_bind fresh] in Hc. injection Hc as <- <- <-.
      destruct (fine_cases l (order ins) (order outs) IH _ _ _ Ers) as ((G1 & G2 & G3) & G4 & G5). pose proof (mapM_lookup _ _ _ Eos) as [Hlo _]. split; [|split].
      + split; [lia|]. rewrite keys_one, ids_one. split.
        * apply (within_mono (S s) (s1 + length (order outs))); [lia | lia|]. eapply within_rev; [| |exact G2|apply within_seq]; lia.
        * apply (within_mono s s1); [lia | lia|]. apply (within_cons s (S s)); [lia | lia | done].
      + cbn [wf_list nins]. split; [constructor; [by apply (Hg p) | by apply (good_all av m (order ins))]|]. split; [|done]. apply wf_node_unfold. split; [|done]. split; [done|].
        eapply Forall_impl; [exact G5|]. intros r [H1 H2]. rewrite H1, H2, seq_length. cbn. auto.
      + rewrite own_one. apply good_add; [apply (good_sub av); [done|]; intros x Hx; apply elem_of_app; auto | | by rewrite seq_length]. intros o Ho. apply elem_of_app. auto.
    - destruct (define_missing undef (order vs) m s) as [[us m0] s0] eqn:Eus. pose proof (fine_missing _ _ _ _ _ _ av Eus Hg) as H0.
      destruct (mapM (fun v => m0 !! v) (order vs)) as [os|] eqn:Eos; [|done]. cbn [mbind option_bind fresh] in Hc.
      destruct (convert None b (add_all (order vs) (seq (S s0) (length (order vs))) ∅) (S s0 + length (order vs))) as [[[nsb mb] s1]|] eqn:Eb; [|done]. cbn [mbind option_bind] in Hc.
      destruct (mapM (fun v => mb !! v) (order vs)) as [posts|] eqn:Eposts; [|done]. cbn [mbind option_bind] in Hc.
      destruct (predicate_of b) as [p|]; [|done]. cbn [mbind option_bind] in Hc. destruct (mb !! p) as [op|] eqn:Eop; [|done]. cbn [mbind option_bind] in Hc. injection Hc as <- <- <-.
      destruct (IH None _ _ _ _ _ (seq (S s0) (length (order vs))) Eb) as ((F1 & F2 & F3) & F4 & F5).
      { apply good_add; [apply good_empty | done | by rewrite seq_length]. }
      pose proof (mapM_lookup _ _ _ Eos) as [Hlo _]. pose proof (mapM_lookup _ _ _ Eposts) as [Hlp _].
      eapply fine_app; [exact H0|]. destruct H0 as (_ & _ & Hg0). split; [|split].
      + split; [lia|]. rewrite keys_one, ids_one, rkeys_cons, rids_cons. unfold rkeys, rids. cbn [map]. change (mjoin []) with (@nil nat). rewrite !app_nil_r. split.
        * apply (within_mono (S s0) (s1 + length (order vs))); [lia | lia|]. eapply within_rev; [| |eapply within_app; [| |apply within_seq|exact F2]|apply within_seq]; lia.
        * apply (within_cons s0 (S s0)); [lia | lia|]. eapply within_mono; [| |exact F3]; lia.
      + cbn [wf_list nins]. split; [by apply (good_all _ m0 (order vs))|]. split; [|done]. apply wf_node_unfold. split.
        * exists (Region (seq (S s0) (length (order vs))) (op :: posts) nsb). cbn [rargs rres length]. rewrite !seq_length. split; [done|]. lia.
        * constructor; [|constructor]. cbn [wf_region]. split; [done|]. constructor; [by apply (F5 p) | by apply (good_all _ mb (order vs))].
      + rewrite own_one. apply good_add; [apply (good_sub (av ++ own us)); [done|]; intros x Hx; apply elem_of_app; auto | | by rewrite seq_length]. intros o Ho. apply elem_of_app. auto.
  Qed.
End Wf.
