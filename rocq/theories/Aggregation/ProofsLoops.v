(** Aggregating the loops of a subgraph. *)
From stdpp Require Import tactics relations base list list_numbers fin_sets gmap fin_maps.
From Verif.Construct Require Import Model Spec.
From Verif.Aggregation Require Import Model Spec ProofsRun ProofsInv ProofsStep ProofsAcyclic.

Lemma bind_single (g : nat -> list nat) (l : list nat) t s : (n ← l; (n,.) <$> g n) = [(t, s)] -> g t = [s].
Proof.
  induction l as [|a l IH]; [done|]. cbn. destruct (g a) as [|m o] eqn:Ea; [exact IH|]. cbn. intros [= -> -> H]. apply app_eq_nil in H as (H & _). apply fmap_nil_inv in H. by rewrite Ea, H.
Qed.
Lemma elem_entry G S q : q ∈ entry_nodes G S <-> q ∈ S /\ exists p, p ∉ S /\ q ∈ outs_of G p.
Proof.
  unfold entry_nodes. rewrite elem_of_list_filter, elem_of_elements, Exists_exists. split.
  - intros (([p m] & Hin & <- & Hp) & HS). split; [done|]. exists p. split; [done|]. by apply elem_edges.
  - intros (HS & p & Hp & Hq). split; [|done]. exists (p, q). split; [by apply elem_edges|done].
Qed.
Record loop_facts (G : graph) (S : gset nat) (h t s : nat) : Prop := LoopFacts {
  lf_h : h ∈ S; lf_t : t ∈ S; lf_s : s ∉ S; lf_ts : s ∈ outs_of G t;
  lf_filter : filter (fun m => m ∉ S) (outs_of G t) = [s];
  lf_in : forall p q, q ∈ outs_of G p -> p ∉ S -> q ∈ S -> q = h;
  lf_out : forall p q, q ∈ outs_of G p -> p ∈ S -> q ∉ S -> p = t /\ q = s;
  lf_rep : forall p i, p ∈ S -> outs_of G p !! i = Some h -> p = t /\ i = 1;
  lf_one : outs_of G t !! 1 = Some h
}.
Lemma tail_some G S h t : tail_controlled G S = Some (h, t, 1) -> exists s, loop_facts G S h t s.
Proof.
  unfold tail_controlled. destruct (entry_nodes G S) as [|h0 [|? ?]] eqn:Eh; [done| |done]. destruct (exit_edges G S) as [|[t0 s] [|? ?]] eqn:Ee; [done| |done].
  destruct (repetition_edges G S) as [|[t1 j] [|? ?]] eqn:Er; [done| |done]. case_decide as Ht; [|done]. intros [= -> -> ->]. subst t1. exists s.
  assert (Hh : forall q, q ∈ S /\ (exists p, p ∉ S /\ q ∈ outs_of G p) <-> q = h). { intros q. rewrite <-elem_entry, Eh. apply elem_of_list_singleton. }
  assert (Hx : forall p q, p ∈ S -> q ∈ outs_of G p -> q ∉ S -> (p, q) = (t, s)).
  { intros p q Hp Hq HqS. apply elem_of_list_singleton. rewrite <-Ee. unfold exit_edges. apply elem_of_list_bind. exists p. rewrite elem_of_elements. split; [|done].
    apply elem_of_list_fmap. exists q. split; [done|]. by apply elem_of_list_filter. }
  assert (Hr : forall p i, p ∈ S -> outs_of G p !! i = Some h -> (p, i) = (t, 1)).
  { intros p i Hp Hi. apply elem_of_list_singleton. rewrite <-Er. unfold repetition_edges. apply elem_of_list_bind. exists p. rewrite elem_of_elements. split; [|done].
    apply elem_of_list_fmap. exists (i, h). split; [done|]. apply elem_of_list_filter. rewrite Eh. split; [cbn; by left|]. apply elem_of_lookup_imap. eauto. }
  assert (Hts : (t, s) ∈ exit_edges G S) by (rewrite Ee; by left). unfold exit_edges in Hts. apply elem_of_list_bind in Hts as (n & Hn & HnS). apply elem_of_list_fmap in Hn as (m & [= <- <-] & Hs).
  apply elem_of_list_filter in Hs as (HsS & Hs). apply elem_of_elements in HnS.
  assert (Ht1 : (t, 1) ∈ repetition_edges G S) by (rewrite Er; by left). unfold repetition_edges in Ht1. apply elem_of_list_bind in Ht1 as (n & Hn & _). apply elem_of_list_fmap in Hn as ([i m] & [= <- <-] & Hm).
  apply elem_of_list_filter in Hm as (Hm & Hm'). apply elem_of_lookup_imap in Hm' as (i & m' & [= <- <-] & Hi). cbn in Hm. rewrite Eh in Hm. apply elem_of_list_singleton in Hm as ->.
  split; [|done|done|done| | | | |done].
  - by apply Hh.
  - by apply (bind_single (fun n => filter (fun m => m ∉ S) (outs_of G n)) (elements S)).
  - intros p q Hq Hp HqS. apply Hh. eauto.
  - intros p q Hq Hp HqS. specialize (Hx p q Hp Hq HqS). by injection Hx.
  - intros p i Hp Hi'. specialize (Hr p i Hp Hi'). by injection Hr.
Qed.
Lemma outs_remove G t i n : outs_of (remove_outedge t i G) n = if decide (n = t) then delete i (outs_of G n) else outs_of G n.
Proof.
  unfold outs_of, remove_outedge. case_decide as H; [subst; rewrite lookup_alter; by destruct (G !! t)|]. by rewrite lookup_alter_ne.
Qed.
Lemma put_delete o h : o !! 1 = Some h -> put h (delete 1 o) = o.
Proof. destruct o as [|s [|h' o]]; [done|done|]. by intros [= ->]. Qed.
Lemma filter_delete (P : nat -> Prop) `{forall m, Decision (P m)} (o : list nat) (i h : nat) : o !! i = Some h -> ~ P h -> filter P (delete i o) = filter P o.
Proof.
  revert i. induction o as [|m o IH]; intros [|i] Hi Hh; [done|done| |].
  - injection Hi as ->. change (delete 0 (h :: o)) with o. by rewrite filter_cons_False.
  - change (delete (S i) (m :: o)) with (m :: delete i o). cbn in Hi. destruct (decide (P m)); [rewrite !filter_cons_True by done; f_equal|rewrite !filter_cons_False by done]; by apply IH.
Qed.
Lemma delete_elem (o : list nat) i q : q ∈ delete i o -> exists k, k <> i /\ o !! k = Some q.
Proof.
  intros (k & Hk)%elem_of_list_lookup. destruct (decide (k < i)).
  - rewrite lookup_delete_lt in Hk by done. exists k. split; [lia|done].
  - rewrite lookup_delete_ge in Hk by lia. exists (S k). split; [lia|done].
Qed.

(** the nodes of a loop of the subgraph *)
Record region (G : graph) (e x : nat) (R S : gset nat) : Prop := Reg {
  rg_R : forall z, z ∈ S -> z ∈ R; rg_e : e ∉ S; rg_x : x ∉ S;
  rg_conn : forall p q, p ∈ S -> q ∈ S -> rtc (inside G S) p q;
  rg_self : forall n, n ∈ S -> n ∈ outs_of G n -> length (outs_of G n) <= 2
}.
Definition inner (cx : ctx) (e x s : nat) : ctx := Nested (K_of cx e x) (E_of cx e) (X_of cx x) s.
Section Loop.
  Context (cx : ctx) (G : graph) (c e x h t s : nat) (R S : gset nat).
  Context (I : inv cx G c e x R) (Rg : region G e x R S) (F : loop_facts G S h t s).
  Definition G1 : graph := remove_outedge t 1 G.
  Lemma t_x : t <> x. Proof using Rg F. intros H. apply (rg_x _ _ _ _ _ Rg). rewrite <-H. apply F. Qed.
  Lemma outs_G1 p q : q ∈ outs_of G1 p -> q ∈ outs_of G p.
  Proof using.
    unfold G1. rewrite outs_remove. case_decide; [|done]. intros (k & _ & Hk)%delete_elem. by eapply elem_of_list_lookup_2.
  Qed.
  Lemma K_None z : z ∈ R -> z <> x -> K_of cx e x !! z = None.
  Proof using I. intros. by eapply K_out. Qed.
  Lemma look_inner z : look G1 (<[t := h]> (K_of cx e x)) z = look G (K_of cx e x) z.
  Proof using All.
    unfold look, G1, remove_outedge. destruct (decide (z = t)) as [->|Hz].
    - rewrite lookup_alter, lookup_insert. rewrite (K_None t); [|apply Rg, F|apply t_x]. pose proof (lf_one _ _ _ _ _ F) as H1. unfold outs_of in H1. destruct (G !! t) as [nd|]; [|done]. cbn.
      do 2 f_equal. by apply put_delete.
    - rewrite lookup_alter_ne by done. by rewrite lookup_insert_ne.
  Qed.
  Lemma inner_same V (ctl : V -> option nat) sem truth σ σ' : behave ctl sem truth (inner cx e x s) G1 h t σ σ' <-> behave ctl sem truth cx G e x σ σ'.
  Proof using All. unfold behave. cbn [inner K_of X_of E_of]. apply run_ext. apply look_inner. Qed.
  Lemma inner_inv : inv (inner cx e x s) G1 c h t S.
  Proof using All.
    assert (HSR := rg_R _ _ _ _ _ Rg). split.
    - intros n nd Hn. unfold G1, remove_outedge in Hn. destruct (decide (n = t)) as [->|Hnt].
      + rewrite lookup_alter in Hn. destruct (G !! t) as [nd0|] eqn:E; [|done]. injection Hn as <-. destruct (inv_lt _ _ _ _ _ _ I _ _ E) as (H1 & H2). split; [done|]. cbn.
        intros m (k & _ & Hk)%delete_elem. apply H2. by eapply elem_of_list_lookup_2.
      + rewrite lookup_alter_ne in Hn by done. by apply (inv_lt _ _ _ _ _ _ I).
    - intros n Hn. unfold G1, remove_outedge. apply HSR in Hn. apply (inv_dom _ _ _ _ _ _ I) in Hn as (nd & Hn). destruct (decide (n = t)) as [->|Hnt].
      + rewrite lookup_alter, Hn. by eexists.
      + rewrite lookup_alter_ne by done. rewrite Hn. by eexists.
    - apply F.
    - apply F.
    - intros p q Hq%outs_G1. by apply (lf_in _ _ _ _ _ F).
    - intros p q Hq%outs_G1 Hp HqS. by destruct (lf_out _ _ _ _ _ F p q Hq Hp HqS).
    - intros p q Hq Hp ->. unfold G1 in Hq. rewrite outs_remove in Hq. destruct (decide (p = t)) as [->|Hpt].
      + apply delete_elem in Hq as (k & Hk & Hh). by destruct (lf_rep _ _ _ _ _ F t k Hp Hh).
      + apply elem_of_list_lookup in Hq as (k & Hk). by destruct (lf_rep _ _ _ _ _ F p k Hp Hk).
    - cbn. split; [|split; [|]].
      + unfold G1. rewrite outs_remove, decide_True by done. rewrite (filter_delete _ _ _ h); [apply F|apply F|]. intros H. apply H, F.
      + intros z Hz. pose proof (rg_conn _ _ _ _ _ Rg z t Hz (lf_t _ _ _ _ _ F)) as Hr. clear Hz. remember t as t0 eqn:Et in Hr at 1. induction Hr as [z|z w t0 (Hw & HzS & HwS) _ IH]; [rewrite Et; apply rtc_refl|].
        specialize (IH Et). destruct (decide (z = t)) as [->|Hzt]; [apply rtc_refl|]. eapply rtc_l; [|exact IH]. split; [|done]. unfold G1. by rewrite outs_remove, decide_False.
      + pose proof (inv_ctx _ _ _ _ _ _ I) as Hx. pose proof (R_lt _ _ _ _ _ _ I) as Hlt. assert (He : e < c) by apply Hlt, I. assert (Hxc : x < c) by apply Hlt, I.
        pose proof (rg_e _ _ _ _ _ Rg) as HeS. pose proof (rg_x _ _ _ _ _ Rg) as HxS. destruct cx as [|K E X s0]; cbn [K_of E_of X_of].
        * split; [done|]. split; [done|]. split; [done|]. split; [done|]. intros k v. by rewrite lookup_empty.
        * destruct Hx as (_ & _ & H3 & H4 & H5 & H6 & H7). split; [intros ?; by apply H3, HSR|]. split; [intros ?; by apply H4, HSR|]. split; [done|]. split; [done|].
          intros k v [(-> & ->)|(_ & Hk)]%lookup_insert_Some; [done|]. destruct (H7 k v Hk) as (G1' & G2' & G3' & G4'). split; [intros ?; by apply G1', HSR|]. split; [intros ?; by apply G2', HSR|]. done.
    - intros n t0 o. cbn [inner K_of]. rewrite look_inner. apply I.
  Qed.
  Lemma inner_self : t ∉ outs_of G1 t /\ forall n, n ∈ S -> n ∈ outs_of G1 n -> length (outs_of G1 n) <= 2.
  Proof using All.
    split.
    - unfold G1. rewrite outs_remove, decide_True by done. intros (k & Hk & Ht)%delete_elem. pose proof (lf_one _ _ _ _ _ F) as H1. pose proof (lf_ts _ _ _ _ _ F) as (i & Hi)%elem_of_list_lookup.
      pose proof (rg_self _ _ _ _ _ Rg t (lf_t _ _ _ _ _ F) (elem_of_list_lookup_2 _ _ _ Ht)) as Hl. pose proof (lf_s _ _ _ _ _ F) as HsS. pose proof (lf_t _ _ _ _ _ F) as HtS. pose proof (lf_h _ _ _ _ _ F) as HhS.
      apply lookup_lt_Some in Ht as Hkl. apply lookup_lt_Some in Hi as Hil. assert (i <> k) by (intros ->; assert (s = t) by congruence; by subst). assert (i <> 1) by (intros ->; assert (s = h) by congruence; by subst). lia.
    - intros n Hn Hnn. pose proof (rg_self _ _ _ _ _ Rg n Hn (outs_G1 _ _ Hnn)) as Hl. unfold G1. rewrite outs_remove. case_decide; [|done]. subst n.
      assert (length (delete 1 (outs_of G t)) <= length (outs_of G t)); [|lia]. generalize (outs_of G t). intros [|m0 [|m1 o]]; cbn; lia.
  Qed.

  Context (G' : graph) (c' n : nat) (I' : inv (inner cx e x s) G' c' n n {[n]}) (Fr : frame G1 c h S G' c' n {[n]}).
  Context (Sm : same (inner cx e x s) G1 h t G' n n).
  Definition G2 : graph := relabel n Loop G'.
  Definition R2 : gset nat := (R ∖ S) ∪ {[n]}.
  Lemma elem_R2 z : z ∈ R2 <-> (z ∈ R /\ z ∉ S) \/ z = n.
  Proof using. unfold R2. rewrite elem_of_union, elem_of_difference, elem_of_singleton. done. Qed.
  Lemma n_new : n ∈ S \/ c <= n.
  Proof using Fr. apply (fr_R _ _ _ _ _ _ _ _ Fr). by apply elem_of_singleton. Qed.
  Lemma G2_other z : z <> n -> G2 !! z = if decide (z ∈ S) then None else rdn h n <$> G !! z.
  Proof using All.
    intros Hz. unfold G2, relabel. rewrite lookup_alter_ne by done. rewrite (fr_G _ _ _ _ _ _ _ _ Fr) by by rewrite elem_of_singleton. destruct (decide (z ∈ S)) as [|HzS]; [done|].
    unfold G1, remove_outedge. rewrite lookup_alter_ne; [done|]. intros <-. apply HzS, F.
  Qed.
  Lemma outs_n : outs_of G' n = [s].
  Proof using All.
    pose proof (inv_ctx _ _ _ _ _ _ I') as Hx. cbn in Hx. destruct Hx as (Hf & _). rewrite <-Hf. symmetry. pose proof (inv_top _ _ _ _ _ _ I' n) as Ht. revert Ht. generalize (outs_of G' n). intros l Ht.
    assert (Ht' : forall q, q ∈ l -> q <> n) by (intros q Hq; apply Ht; [done|by apply elem_of_singleton]). clear -Ht'. induction l as [|m l IH]; [done|].
    rewrite filter_cons_True by (rewrite elem_of_singleton; apply Ht'; by left). f_equal. apply IH. intros q Hq. apply Ht'. by right.
  Qed.
  Lemma outs_G2_n : outs_of G2 n = [s].
  Proof using All. rewrite <-outs_n. unfold G2, relabel, outs_of. rewrite lookup_alter. by destruct (G' !! n). Qed.
  Lemma outs_G2 z : z <> n -> z ∉ S -> outs_of G2 z = redirect h n <$> outs_of G z.
  Proof using All. intros H1 H2. unfold outs_of. rewrite G2_other by done. rewrite decide_False by done. by destruct (G !! z). Qed.
  Lemma outs_G2_other p q : q ∈ outs_of G2 p -> p <> n -> p ∉ S /\ ((q = n /\ h ∈ outs_of G p) \/ (q ∈ outs_of G p /\ q ∉ S /\ q <> n)).
  Proof using All.
    intros Hq Hp. destruct (decide (p ∈ S)) as [HpS|HpS]. { unfold outs_of in Hq. rewrite G2_other, decide_True in Hq by done. by apply elem_of_nil in Hq. }
    split; [done|]. rewrite outs_G2 in Hq by done. apply elem_of_list_fmap in Hq as (q0 & -> & Hq0). unfold redirect. case_decide as Hh; [subst; by left|]. right.
    assert (HqS : q0 ∉ S). { intros HqS. by apply Hh, (lf_in _ _ _ _ _ F p q0). } split; [done|]. split; [done|]. intros ->. destruct n_new as [?|Hn]; [done|].
    apply elem_outs in Hq0 as (nd & Hnd & Hq0). apply (inv_lt _ _ _ _ _ _ I) in Hnd as (_ & Hnd). apply Hnd in Hq0. lia.
  Qed.
  Lemma s_facts : s ∈ R /\ s ∉ S /\ s <> e /\ s <> n /\ s ∈ R2.
  Proof using All.
    assert (HsR : s ∈ R). { destruct (decide (s ∈ R)) as [|H]; [done|]. exfalso. apply t_x, (inv_out _ _ _ _ _ _ I t s); [apply F|apply Rg, F|done]. }
    split; [done|]. split; [apply F|]. split; [apply (inv_top _ _ _ _ _ _ I t s); [apply F|apply Rg, F]|]. split; [|apply elem_R2; left; split; [done|apply F]].
    apply (inv_top _ _ _ _ _ _ I' n s); [rewrite outs_n; by left|by apply elem_of_singleton].
  Qed.
  Lemma R_n z : z ∈ R -> z ∉ S -> z <> n.
  Proof using I Fr. intros H1 H2 ->. destruct n_new as [?|Hn]; [done|]. apply (R_lt _ _ _ _ _ _ I) in H1. lia. Qed.
  Lemma look_G2 z : z <> n -> look G2 (K_of cx e x) z = look G' (<[n := n]> (K_of cx e x)) z.
  Proof using. intros Hz. unfold look, G2, relabel. rewrite lookup_alter_ne by done. by rewrite lookup_insert_ne. Qed.
  Lemma K_n : K_of cx e x !! n = None.
  Proof using All.
    pose proof (inv_ctx _ _ _ _ _ _ I') as Hx. cbn in Hx. destruct Hx as (_ & _ & _ & _ & _ & _ & Hx). destruct (K_of cx e x !! n) as [v|] eqn:E; [|done].
    destruct (Hx n v E) as (H & _). by apply not_elem_of_singleton in H.
  Qed.
  Lemma look_n : exists lab, look G' (<[n := n]> (K_of cx e x)) n = Some (lab, [s; n]) /\ look G2 (K_of cx e x) n = Some (Loop lab, [s]).
  Proof using All.
    pose proof outs_n as Ho. pose proof K_n as Hk. unfold look, G2, relabel. rewrite lookup_insert, lookup_alter, Hk. destruct (inv_dom _ _ _ _ _ _ I' n ltac:(by apply elem_of_singleton)) as (nd & Hn).
    rewrite (outs_of_some _ _ _ Hn) in Ho. rewrite Hn. cbn. rewrite Ho. eauto.
  Qed.
  Lemma loop_same : same cx G e x G2 e x.
  Proof using All.
    intros V ctl sem truth σ σ'. rewrite <-inner_same. rewrite (Sm V ctl sem truth σ σ'). unfold behave. cbn [inner K_of X_of E_of]. destruct look_n as (lab & H1 & H2).
    apply (loop_run ctl sem truth _ _ (X_of cx x) n s lab); [|done|done|].
    - intros ->. pose proof (inv_ctx _ _ _ _ _ _ I') as Hx. cbn in Hx. destruct Hx as (_ & _ & _ & Hx & _). by apply not_elem_of_singleton in Hx.
    - intros z Hz. by apply look_G2.
  Qed.
  Lemma loop_frame : frame G c e R G2 c' e R2.
  Proof using All.
    split; [apply Fr|by left| |].
    - intros z [[? _]| ->]%elem_R2; [by left|]. destruct n_new as [?|?]; [left; by apply Rg|by right].
    - intros z Hz. assert (Hzn : z <> n) by (intros ->; apply Hz, elem_R2; by right). rewrite G2_other by done. destruct (decide (z ∈ S)) as [HzS|HzS]; [by rewrite decide_True by by apply Rg|].
      destruct (decide (z ∈ R)) as [HzR|HzR]; [exfalso; apply Hz, elem_R2; by left|]. rewrite rdn_refl. destruct (G !! z) as [[l o]|] eqn:E; [|done]. cbn. unfold rdn. cbn. do 2 f_equal.
      assert (Hno : h ∉ o). { intros Hin. assert (h = e); [|pose proof (rg_e _ _ _ _ _ Rg) as He; pose proof (lf_h _ _ _ _ _ F); by subst]. apply (inv_in _ _ _ _ _ _ I z h); [by rewrite (outs_of_some _ _ _ E)|done|apply Rg, F]. }
      clear -Hno. induction o as [|m o IH]; [done|]. apply not_elem_of_cons in Hno as (H1 & H2). cbn. rewrite redirect_ne by done. f_equal. by apply IH.
  Qed.
  Lemma loop_reach z : rtc (inside G R) z x -> rtc (inside G2 R2) (if decide (z ∈ S) then n else z) x.
  Proof using All.
    intros H. remember x as x0 eqn:Ex in H at 1. induction H as [z|z w x0 (Hw & HzR & HwR) _ IH].
    - rewrite Ex, decide_False by apply Rg. apply rtc_refl.
    - specialize (IH Ex). destruct (decide (z ∈ S)) as [HzS|HzS], (decide (w ∈ S)) as [HwS|HwS]; [exact IH| | |].
      + destruct (lf_out _ _ _ _ _ F z w Hw HzS HwS) as (-> & ->). eapply rtc_l; [|exact IH]. split; [rewrite outs_G2_n; by left|]. split; apply elem_R2; [by right|by left].
      + pose proof (lf_in _ _ _ _ _ F z w Hw HzS HwS) as ->. eapply rtc_l; [|exact IH]. split; [|split; apply elem_R2; [by left|by right]].
        rewrite outs_G2; [|by apply R_n|done]. apply elem_of_list_fmap. exists h. by rewrite redirect_eq.
      + eapply rtc_l; [|exact IH]. split; [|split; apply elem_R2; by left]. rewrite outs_G2; [|by apply R_n|done]. apply elem_of_list_fmap. exists w. split; [|done].
        rewrite redirect_ne; [done|]. intros ->. apply HwS, F.
  Qed.
  Lemma filter_G2 : filter (fun m => m ∉ R2) (outs_of G2 x) = filter (fun m => m ∉ R) (outs_of G x).
  Proof using All.
    assert (HxR : x ∈ R) by apply I. assert (HxS : x ∉ S) by apply Rg. rewrite outs_G2; [|by apply R_n|done].
    assert (Hq : forall q, q ∈ outs_of G x -> (redirect h n q ∈ R2 <-> q ∈ R) /\ (q ∉ R -> redirect h n q = q)).
    { intros q Hq. unfold redirect. destruct (decide (q = h)) as [->|Hqh].
      - pose proof (rg_R _ _ _ _ _ Rg h (lf_h _ _ _ _ _ F)). split; [|done]. split; [done|]. intros _. apply elem_R2. by right.
      - split; [|done]. assert (HqS : q ∉ S) by (intros ?; by apply Hqh, (lf_in _ _ _ _ _ F x q)). split; [|intros ?; apply elem_R2; by left].
        intros [[? _]| ->]%elem_R2; [done|]. exfalso. destruct n_new as [?|Hn]; [done|]. apply elem_outs in Hq as (nd & Hnd & Hq). apply (inv_lt _ _ _ _ _ _ I) in Hnd as (_ & Hnd). apply Hnd in Hq. lia. }
    revert Hq. generalize (outs_of G x). intros l Hq. clear -Hq. induction l as [|m l IH]; [done|]. rewrite fmap_cons. destruct (Hq m ltac:(by left)) as (H1 & H2).
    specialize (IH (fun q H => Hq q (elem_of_list_further _ _ _ H))). destruct (decide (m ∈ R)) as [HmR|HmR].
    - rewrite !filter_cons_False; [exact IH| |]; tauto.
    - rewrite !filter_cons_True by tauto. rewrite H2 by done. by f_equal.
  Qed.
  Lemma loop_inv : inv cx G2 c' e x R2.
  Proof using All.
    pose proof s_facts as (HsR & HsS & Hse & Hsn & HsR2). split.
    - intros z nd Hz. unfold G2, relabel in Hz. destruct (decide (z = n)) as [->|Hzn].
      + rewrite lookup_alter in Hz. destruct (G' !! n) as [nd0|] eqn:E; [|done]. injection Hz as <-. exact (inv_lt _ _ _ _ _ _ I' _ _ E).
      + rewrite lookup_alter_ne in Hz by done. by apply (inv_lt _ _ _ _ _ _ I').
    - intros z [[H1 H2]| ->]%elem_R2.
      + rewrite G2_other by by apply R_n. rewrite decide_False by done. destruct (inv_dom _ _ _ _ _ _ I _ H1) as (nd & ->). by eexists.
      + unfold G2, relabel. rewrite lookup_alter. destruct (inv_dom _ _ _ _ _ _ I' n ltac:(by apply elem_of_singleton)) as (nd & ->). by eexists.
    - apply elem_R2. left. split; [apply I|apply Rg].
    - apply elem_R2. left. split; [apply I|apply Rg].
    - intros p q Hq Hp HqR. assert (Hpn : p <> n) by (intros ->; apply Hp, elem_R2; by right). apply outs_G2_other in Hq as (HpS & Hq); [|done].
      assert (HpR : p ∉ R) by (intros ?; apply Hp, elem_R2; by left). destruct Hq as [(-> & Hh)|(Hq & HqS & Hqn)].
      + exfalso. apply (rg_e _ _ _ _ _ Rg). rewrite <-(inv_in _ _ _ _ _ _ I p h Hh HpR (rg_R _ _ _ _ _ Rg h (lf_h _ _ _ _ _ F))). apply F.
      + apply elem_R2 in HqR as [[HqR _]|?]; [|done]. by apply (inv_in _ _ _ _ _ _ I p q).
    - intros p q Hq Hp HqR. destruct (decide (p = n)) as [->|Hpn]; [rewrite outs_G2_n in Hq; apply elem_of_list_singleton in Hq; by subst q|].
      apply outs_G2_other in Hq as (HpS & Hq); [|done]. apply elem_R2 in Hp as [[HpR _]|?]; [|done]. destruct Hq as [(-> & Hh)|(Hq & HqS & Hqn)]; [destruct HqR; apply elem_R2; by right|].
      apply (inv_out _ _ _ _ _ _ I p q); [done|done|]. intros ?. apply HqR, elem_R2. by left.
    - intros p q Hq Hp ->. destruct (decide (p = n)) as [->|Hpn]; [rewrite outs_G2_n in Hq; apply elem_of_list_singleton in Hq; congruence|].
      apply outs_G2_other in Hq as (HpS & Hq); [|done]. apply elem_R2 in Hp as [[HpR _]|?]; [|done]. destruct Hq as [(He & Hh)|(Hq & HqS & Hqn)].
      + apply (R_n e); [apply I|apply Rg|done].
      + by apply (inv_top _ _ _ _ _ _ I p e).
    - pose proof (inv_ctx _ _ _ _ _ _ I) as Hx. pose proof (inv_ctx _ _ _ _ _ _ I') as Hx'. cbn [inner] in Hx'. pose proof filter_G2 as Hf. pose proof loop_reach as Hr.
      pose proof (outs_G2 x ltac:(apply R_n; [apply I|apply Rg]) ltac:(apply Rg)) as Hox. pose proof elem_R2 as He2. pose proof (fr_c _ _ _ _ _ _ _ _ Fr) as Hcc. destruct cx as [|K E X s0].
      + by rewrite Hox, Hx.
      + destruct Hx as (H1 & H2 & H3 & H4 & H5 & H6 & H7). cbn [K_of E_of X_of] in Hx'. destruct Hx' as (_ & _ & G3 & G4 & G5 & G6 & G7). apply not_elem_of_singleton in G3, G4. rewrite Hf.
        split; [done|]. split.
        * intros z [[HzR HzS]| ->]%He2.
          -- pose proof (Hr z (H2 z HzR)) as Hz. by rewrite decide_False in Hz.
          -- pose proof (lf_h _ _ _ _ _ F) as HhS. pose proof (Hr h (H2 h (rg_R _ _ _ _ _ Rg h HhS))) as Hz. by rewrite decide_True in Hz.
        * split; [intros [[? _]|?]%He2; done|]. split; [intros [[? _]|?]%He2; done|]. split; [done|]. split; [done|]. intros k v Hk. destruct (H7 k v Hk) as (J1 & J2 & J3 & J4).
          assert (Hkx : k <> x) by (intros ->; apply J1, I). destruct (G7 k v) as (L1 & L2 & L3 & L4); [by rewrite lookup_insert_ne|]. apply not_elem_of_singleton in L1, L2.
          split; [intros [[? _]|?]%He2; done|]. split; [intros [[? _]|?]%He2; done|]. done.
    - intros z t0 o Hz. pose proof (inv_good _ _ _ _ _ _ I') as Hg. cbn [inner K_of] in Hg. destruct (decide (z = n)) as [->|Hzn].
      + destruct look_n as (lab & H1 & H2). rewrite H2 in Hz. injection Hz as <- <-. destruct (Hg _ _ _ H1) as (Hok & Hp). split; [|cbn; lia]. cbn. split; [apply Hp; cbn; lia|done].
      + rewrite look_G2 in Hz by done. by apply (Hg z).
  Qed.
  Lemma loop_region S' : (forall z, z ∈ S -> z ∉ S') -> region G e x R S' -> region G2 e x R2 S'.
  Proof using All.
    intros Hd Rg'. assert (HnS' : n ∉ S'). { intros Hn. destruct n_new as [H|H]; [by eapply Hd|]. apply (rg_R _ _ _ _ _ Rg') in Hn. apply (R_lt _ _ _ _ _ _ I) in Hn. lia. }
    assert (Hne : forall z, z ∈ S' -> z <> n /\ z ∉ S) by (intros z Hz; split; [by intros ->|intros ?; by eapply Hd]).
    split; [|apply Rg'|apply Rg'| |].
    - intros z Hz. apply elem_R2. left. split; [by apply Rg'|by apply Hne].
    - intros p q Hp Hq. pose proof (rg_conn _ _ _ _ _ Rg' p q Hp Hq) as Hr. clear Hp Hq. induction Hr as [p|p w q (Hw & HpS & HwS) _ IH]; [apply rtc_refl|]. eapply rtc_l; [|exact IH].
      split; [|done]. destruct (Hne p HpS). rewrite outs_G2 by done. apply elem_of_list_fmap. exists w. split; [|done]. rewrite redirect_ne; [done|]. intros ->. eapply Hd; [apply F|done].
    - intros z Hz Hzz. destruct (Hne z Hz) as (H1 & H2). rewrite outs_G2 in Hzz |- * by done. rewrite fmap_length. apply (rg_self _ _ _ _ _ Rg' z Hz).
      apply elem_of_list_fmap in Hzz as (q & Heq & Hq). unfold redirect in Heq. destruct (decide (q = h)); [done|]. by subst.
  Qed.
End Loop.
