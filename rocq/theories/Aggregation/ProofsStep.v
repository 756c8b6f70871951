(** The two reductions of an acyclic subgraph. *)
From stdpp Require Import tactics relations base list list_numbers fin_sets gmap fin_maps.
From Verif.Construct Require Import Model Spec.
From Verif.Aggregation Require Import Model Spec ProofsRun ProofsInv.

Definition behave {V : Type} (ctl : V -> option nat) sem truth (cx : ctx) (G : graph) (e x : nat) (σ σ' : nat -> V) : Prop :=
  run ctl sem truth (look G (K_of cx e x)) (X_of cx x) (E_of cx e) σ σ'.
Definition same (cx : ctx) (G : graph) (e x : nat) (G' : graph) (e' x' : nat) : Prop :=
  forall (V : Type) (ctl : V -> option nat) sem truth (σ σ' : nat -> V), behave ctl sem truth cx G e x σ σ' <-> behave ctl sem truth cx G' e' x' σ σ'.
Lemma lookup_divert a c G z : divert a c G !! z = rdn a c <$> G !! z.
Proof. unfold divert. by rewrite lookup_fmap. Qed.
Lemma no_branch t : tree_ok None t -> forall l, t <> Branch l.
Proof. intros H l ->. cbn in H. by destruct H as (_ & (p & [=]) & _). Qed.
Lemma tree_ok_prev prev t : tree_ok None t -> tree_ok prev t.
Proof. destruct t; cbn; [done|done|by intros (_ & (p & [=]) & _)|done]. Qed.

Lemma linear_step cx G c e x R a b st' : inv cx G c e x R -> a ∈ R -> a <> x -> outs_of G a = [b] -> in_degree G b = 1 ->
  reduce_linear (State G c e x) a b = Some st' ->
  next st' = S c /\ exists R', inv cx (gr st') (S c) (ent st') (ext st') R' /\ frame G c e R (gr st') (S c) (ent st') R' /\ c ∈ R' /\ same cx G e x (gr st') (ent st') (ext st').
Proof.
  intros I HaR Hax Hoa Hdeg. unfold reduce_linear. cbn [gr next ent ext]. case_decide as Hab; [done|].
  destruct (G !! a) as [na|] eqn:Ea; [|done]. destruct (G !! b) as [nb|] eqn:Eb; [|done]. cbn. intros [= <-]. cbn [gr next ent ext].
  set (oc := redirect a c <$> outs nb). set (G' := <[c := Node (Linear [label na; label nb]) oc]> (delete b (delete a (divert a c G)))).
  assert (Hob : outs_of G b = outs nb) by by apply outs_of_some. assert (Hba : b ∈ outs_of G a) by (rewrite Hoa; by left).
  assert (HbR : b ∈ R). { destruct (decide (b ∈ R)); [done|]. exfalso. by apply Hax, (inv_out _ _ _ _ _ _ I a b). }
  assert (Hbe : b <> e) by by apply (inv_top _ _ _ _ _ _ I a b). assert (Hpred : forall p, b ∈ outs_of G p -> p = a) by (intros p Hp; by apply (in_degree_one G b)).
  set (D := {[a; b]} : gset nat). assert (HD : forall d, d ∈ D <-> d = a \/ d = b) by (intros d; unfold D; rewrite elem_of_union, !elem_of_singleton; done).
  assert (Hac : a < c) by by apply (R_lt _ _ _ _ _ _ I). assert (Hbc : b < c) by by apply (R_lt _ _ _ _ _ _ I). assert (Hxc : x < c) by (apply (R_lt _ _ _ _ _ _ I), I).
  assert (A1 : forall d, d ∈ D -> d ∈ R) by (intros d [->| ->]%HD; done).
  assert (A2 : a ∈ D) by (apply HD; by left).
  assert (A3 : forall p q, q ∈ outs_of G p -> q ∈ D -> q <> a -> p = a) by (intros p q Hq [->| ->]%HD Hqa; [done|by apply Hpred]).
  assert (A4 : forall d, d ∈ D -> d <> a -> d ∈ outs_of G a) by (intros d [->| ->]%HD Hd; done).
  assert (A5 : is_Some (G' !! c)) by (unfold G'; rewrite lookup_insert; by eexists).
  assert (A6 : outs_of G' c = oc) by (unfold outs_of, G'; by rewrite lookup_insert).
  assert (A7 : forall z, z ∉ D -> z <> c -> G' !! z = rdn a c <$> G !! z).
  { intros z Hz Hzc. unfold G'. rewrite lookup_insert_ne by done. rewrite lookup_delete_ne by (intros ->; apply Hz, HD; by right). rewrite lookup_delete_ne by (intros ->; apply Hz, HD; by left). apply lookup_divert. }
  assert (A8 : forall d, d ∈ D -> G' !! d = None).
  { intros d [->| ->]%HD; unfold G'; rewrite lookup_insert_ne by lia; [rewrite lookup_delete_ne by done|]; apply lookup_delete. }
  assert (A9 : forall d q, d ∈ D -> q ∈ outs_of G d -> (q ∈ D /\ q <> a) \/ redirect a c q ∈ oc).
  { intros d q [->| ->]%HD Hq; [left|right].
    - rewrite Hoa in Hq. apply elem_of_list_singleton in Hq as ->. split; [apply HD; by right|done].
    - rewrite Hob in Hq. by apply elem_of_list_fmap_1. }
  assert (A10 : forall w, w ∈ oc -> exists d q, d ∈ D /\ q ∈ outs_of G d /\ w = redirect a c q /\ (q ∉ D \/ q = a)).
  { intros w (q & -> & Hq)%elem_of_list_fmap. rewrite <-Hob in Hq. exists b, q. split; [apply HD; by right|]. split; [done|]. split; [done|].
    destruct (decide (q = a)); [by right|]. left. intros [->| ->]%HD; [done|]. by apply Hab, eq_sym, Hpred. }
  assert (A11 : x ∈ D -> oc = redirect a c <$> outs_of G x) by (intros [->| ->]%HD; [done|by rewrite Hob]).
  assert (Hx' : x' c x D = redirect b c x).
  { unfold x', redirect. destruct (decide (x = b)) as [->|Hxb]; [rewrite decide_True; [done|apply HD; by right]|]. rewrite decide_False; [done|]. intros [->| ->]%HD; done. }
  pose proof (look_z cx G G' c e x a R D oc I A1 A2 A3 A4 (not_eq_sym Hax) A5 A6 A7 A8 A9 A10 A11) as Hlz. fold (e' c e a) in *. rewrite Hx' in Hlz.
  assert (Hgood := inv_good _ _ _ _ _ _ I).
  assert (Hla : look G (K_of cx e x) a = Some (label na, [b])). { unfold look. rewrite Ea. cbn. rewrite (K_out _ _ _ _ _ _ a I HaR Hax). rewrite (outs_of_some _ _ _ Ea) in Hoa. by rewrite Hoa. }
  assert (Hlb : exists ob, look G (K_of cx e x) b = Some (label nb, ob) /\ look G' (K_of cx (e' c e a) (redirect b c x)) c = Some (Linear [label na; label nb], redirect a c <$> ob)).
  { unfold look. rewrite Eb. cbn. eexists. split; [reflexivity|]. unfold G'. rewrite lookup_insert. cbn. f_equal. f_equal.
    destruct (decide (x = b)) as [Hxb|Hxb].
    - rewrite Hxb, redirect_eq. destruct cx as [|K E1 X s]; cbn [K_of]; [by rewrite !lookup_empty|]. rewrite !lookup_insert. unfold oc. by rewrite fmap_put.
    - rewrite (K_out _ _ _ _ _ _ b I HbR ltac:(done)). rewrite (redirect_ne b c x) by done. pose proof (inv_ctx _ _ _ _ _ _ I) as Hcx.
      destruct cx as [|K E1 X s]; cbn [K_of]; [by rewrite !lookup_empty|]. rewrite lookup_insert_ne by lia. destruct (K !! c) as [v|] eqn:E; [|done].
      destruct Hcx as (_ & _ & _ & _ & _ & _ & Hcx). apply Hcx in E. lia. }
  destruct Hlb as (ob & Hlb & Hlc). destruct (Hgood _ _ _ Hla) as (Hta & _). destruct (Hgood _ _ _ Hlb) as (Htb & Hpb).
  split; [done|]. exists (R' c R D). split; [|split; [|split]].
  - rewrite <-Hx'. eapply (collapse_inv cx G G' c e x a R D oc); [done..| ]. rewrite Hx'. intros n t o Hn. destruct (decide (n = c)) as [->|Hnc].
    + rewrite Hlc in Hn. injection Hn as <- <-. split; [cbn; split; [done|]; split; [by apply tree_ok_prev|done]|]. rewrite fmap_length. exact Hpb.
    + destruct (decide (n ∈ D)) as [HnD|HnD]; [unfold look in Hn; by rewrite A8 in Hn|]. rewrite Hlz in Hn by done.
      destruct (look G (K_of cx e x) n) as [[t0 o0]|] eqn:E; [|done]. injection Hn as <- <-. destruct (Hgood _ _ _ E) as (H1 & H2). split; [done|]. by rewrite fmap_length.
  - eapply (collapse_frame cx G G' c e x a R D oc); done.
  - apply elem_R'. by right.
  - intros V ctl sem truth σ σ'. unfold behave.
    destruct (X_facts cx G G' c e x a R D oc I A1 A2 A3 A4 (not_eq_sym Hax) A5 A6 A7 A8 A9 A10 A11) as (HX1 & HX2 & HX3). rewrite Hx' in HX3.
    destruct (E_facts cx G G' c e x a R D oc I A1 A2 A3 A4 (not_eq_sym Hax) A5 A6 A7 A8 A9 A10 A11) as (HE1 & HE2 & HE3).
    change (redirect a c e) with (e' c e a). rewrite HE3, HX3.
    assert (HXr : (if decide (X_of cx x ∈ D) then c else X_of cx x) = redirect b c (X_of cx x)).
    { unfold redirect. destruct (decide (X_of cx x = b)) as [->|Hne]; [rewrite decide_True; [done|apply HD; by right]|]. rewrite decide_False; [done|]. intros [?|?]%HD; done. }
    rewrite HXr. apply (linear_run ctl sem truth _ _ (X_of cx x) a b c (label na) (label nb) ob); [done|done|done|done|done|by apply no_branch| | | |done| | |done].
    + intros p t o Hp Hq. apply (look_edge_D cx G G' c e x a R D oc I A1 A2 A3 A4 (not_eq_sym Hax) A5 A6 A7 A8 A9 A10 A11 p t o b Hp Hq); [apply HD; by right|done].
    + apply (look_c cx G G' c e x a R D oc I A1 A2 A3 A4 (not_eq_sym Hax) A5 A6 A7 A8 A9 A10 A11).
    + intros p t o Hp. apply (look_edge_c cx G G' c e x a R D oc I A1 A2 A3 A4 (not_eq_sym Hax) A5 A6 A7 A8 A9 A10 A11 p t o Hp).
    + intros z H1 H2 H3. apply Hlz; [|done]. intros [?|?]%HD; done.
    + intros Hb'. apply Hab. symmetry. rewrite <-Hb'. apply HE2. rewrite Hb'. apply HD. by right.
Qed.

Lemma in_degree_twice G n a nd i j : G !! a = Some nd -> in_degree G n = 1 -> outs nd !! i = Some n -> outs nd !! j = Some n -> i = j.
Proof.
  intros Ha Hd Hi Hj. assert (H : length (filter (fun m => m = n) (outs nd)) <= 1).
  { rewrite <-Hd. unfold in_degree, edges. rewrite <-(map_to_list_delete G a nd Ha). cbn. rewrite filter_app, app_length. clear. induction (outs nd) as [|m o IH]; [cbn; lia|].
    rewrite fmap_cons. destruct (decide (m = n)) as [H|H]; [rewrite !filter_cons_True by done|rewrite !filter_cons_False by done]; cbn in *; lia. }
  revert i j Hi Hj. induction (outs nd) as [|m o IH]; intros i j Hi Hj; [done|]. destruct (decide (m = n)) as [->|Hm].
  - rewrite filter_cons_True in H by done. cbn in H. assert (Hno : n ∉ o). { intros Hin. assert (Hin' : n ∈ filter (fun m => m = n) o) by by apply elem_of_list_filter. destruct (filter (fun m => m = n) o); [by apply elem_of_nil in Hin'|cbn in H; lia]. }
    destruct i as [|i], j as [|j]; cbn in Hi, Hj; [done|by destruct Hno; eapply elem_of_list_lookup_2|by destruct Hno; eapply elem_of_list_lookup_2|by destruct Hno; eapply elem_of_list_lookup_2].
  - rewrite filter_cons_False in H by done. destruct i as [|i], j as [|j]; cbn in Hi, Hj; [done|congruence|congruence|]. f_equal. by apply IH.
Qed.
Lemma foldr_delete_in (l : list nat) (M : graph) z : z ∈ l -> foldr delete M l !! z = None.
Proof.
  induction l as [|k l IH]; intros H; [by apply elem_of_nil in H|]. cbn. destruct (decide (z = k)) as [->|Hz]; [apply lookup_delete|].
  rewrite lookup_delete_ne by done. apply IH. by apply elem_of_cons in H as [?|?].
Qed.
Lemma foldr_delete_out (l : list nat) (M : graph) z : z ∉ l -> foldr delete M l !! z = M !! z.
Proof.
  induction l as [|k l IH]; intros H; [done|]. cbn. apply not_elem_of_cons in H as (H1 & H2). rewrite lookup_delete_ne by done. by apply IH.
Qed.
Lemma is_branch_some G a join : is_branch G a = Some join -> exists nd, G !! a = Some nd /\ 2 <= length (outs nd) /\ forall m, m ∈ outs nd -> in_degree G m = 1 /\ outs_of G m = [join].
Proof.
  unfold is_branch. destruct (G !! a) as [nd|]; [|done]. cbn. destruct (outs nd) as [|s [|s' o]] eqn:Eo; [done|done|]. destruct (G !! s) as [ns|]; [|done]. cbn.
  destruct (outs ns) as [|j [|? ?]]; [done| |done]. case_decide as H; [|done]. intros [= <-]. exists nd. split; [done|]. rewrite Eo. split; [cbn; lia|]. intros m Hm.
  rewrite Forall_forall in H. destruct (H m Hm) as (H1 & H2). split; [done|]. unfold outs_of. destruct (G !! m); [|done]. cbn in H2. by injection H2 as ->.
Qed.
Lemma branch_step cx G c e x R a join st' : inv cx G c e x R -> a ∈ R -> a <> x -> is_branch G a = Some join ->
  reduce_branch (State G c e x) a join = Some st' ->
  next st' = S c /\ ext st' = x /\ exists R', inv cx (gr st') (S c) (ent st') (ext st') R' /\ frame G c e R (gr st') (S c) (ent st') R' /\ c ∈ R' /\ same cx G e x (gr st') (ent st') (ext st').
Proof.
  intros I HaR Hax Hbr. apply is_branch_some in Hbr as (na & Ea & Hlen & Halt). unfold reduce_branch. cbn [gr next ent ext]. case_decide as Hja; [done|].
  rewrite Ea. cbn. destruct (mapM (fun m => label <$> G !! m) (outs na)) as [ls|] eqn:Els; [|done]. cbn. intros [= <-]. cbn [gr next ent ext].
  set (oa := outs na) in *. apply mapM_Some in Els.
  change (delete a (foldr delete (divert a c G) oa)) with (foldr delete (divert a c G) (a :: oa)).
  set (G' := <[c := Node (Linear [label na; Branch ls]) [join]]> (foldr delete (divert a c G) (a :: oa))).
  assert (Hoa : outs_of G a = oa) by by apply outs_of_some. assert (HoaR : forall m, m ∈ oa -> m ∈ R).
  { intros m Hm. destruct (decide (m ∈ R)); [done|]. exfalso. apply Hax, (inv_out _ _ _ _ _ _ I a m); [by rewrite Hoa|done|done]. }
  assert (Haoa : a ∉ oa). { intros Hin. destruct (Halt a Hin) as (_ & H). rewrite Hoa in H. rewrite H in Hlen. cbn in Hlen. lia. }
  assert (Hpred : forall p m, m ∈ oa -> m ∈ outs_of G p -> p = a). { intros p m Hm Hp. destruct (Halt m Hm) as (H & _). apply (in_degree_one G m p a H Hp). by rewrite Hoa. }
  assert (Hex : exists m, m ∈ oa). { destruct oa as [|m o]; [cbn in Hlen; lia|]. exists m. by left. }
  assert (Hjoa : join ∉ oa). { destruct Hex as (m & Hm). intros Hin. apply Haoa. rewrite <-(Hpred m join Hin); [done|]. destruct (Halt m Hm) as (_ & ->). by left. }
  assert (Hxoa : x ∉ oa).
  { intros Hin. pose proof (inv_ctx _ _ _ _ _ _ I) as Hcx. destruct (Halt x Hin) as (Hdx & Hox). rewrite Hox in Hcx. destruct cx as [|K E X s]; [done|]. destruct Hcx as (Hf & _).
    destruct (decide (join ∈ R)) as [HjR|HjR]; [rewrite filter_cons_False in Hf by tauto; done|].
    assert (Hall : forall m, m ∈ oa -> m = x). { intros m Hm. apply (inv_out _ _ _ _ _ _ I m join); [|by apply HoaR|done]. destruct (Halt m Hm) as (_ & ->). by left. }
    destruct oa as [|m0 [|m1 o]] eqn:Eoa; [cbn in Hlen; lia|cbn in Hlen; lia|]. assert (H01 : 0 = 1); [|done]. apply (in_degree_twice G x a na 0 1); [done|done| |]; fold oa; rewrite Eoa; cbn; f_equal; apply Hall; [by left|right; by left]. }
  set (D := {[a]} ∪ list_to_set oa : gset nat). assert (HD : forall d, d ∈ D <-> d = a \/ d ∈ oa) by (intros d; unfold D; rewrite elem_of_union, elem_of_singleton, elem_of_list_to_set; done).
  assert (Hac : a < c) by by apply (R_lt _ _ _ _ _ _ I). assert (Hxc : x < c) by (apply (R_lt _ _ _ _ _ _ I), I).
  assert (HDl : forall d, d ∈ D <-> d ∈ a :: oa) by (intros d; rewrite HD, elem_of_cons; done).
  set (oc := [join]).
  assert (A1 : forall d, d ∈ D -> d ∈ R) by (intros d [->|?]%HD; [done|by apply HoaR]).
  assert (A2 : a ∈ D) by (apply HD; by left).
  assert (A3 : forall p q, q ∈ outs_of G p -> q ∈ D -> q <> a -> p = a) by (intros p q Hq [->|?]%HD Hqa; [done|by apply (Hpred p q)]).
  assert (A4 : forall d, d ∈ D -> d <> a -> d ∈ outs_of G a) by (intros d [->|?]%HD Hd; [done|by rewrite Hoa]).
  assert (A5 : is_Some (G' !! c)) by (unfold G'; rewrite lookup_insert; by eexists).
  assert (A6 : outs_of G' c = oc) by (unfold outs_of, G'; by rewrite lookup_insert).
  assert (A7 : forall z, z ∉ D -> z <> c -> G' !! z = rdn a c <$> G !! z).
  { intros z Hz Hzc. unfold G'. rewrite lookup_insert_ne by done. rewrite foldr_delete_out by by rewrite <-HDl. apply lookup_divert. }
  assert (A8 : forall d, d ∈ D -> G' !! d = None).
  { intros d Hd. unfold G'. assert (d < c) by by apply (R_lt _ _ _ _ _ _ I), A1. rewrite lookup_insert_ne by lia. by apply foldr_delete_in, HDl. }
  assert (A9 : forall d q, d ∈ D -> q ∈ outs_of G d -> (q ∈ D /\ q <> a) \/ redirect a c q ∈ oc).
  { intros d q [->|Hd]%HD Hq; [left|right].
    - rewrite Hoa in Hq. split; [apply HD; by right|]. by intros ->.
    - destruct (Halt d Hd) as (_ & Ho). rewrite Ho in Hq. apply elem_of_list_singleton in Hq as ->. rewrite redirect_ne by done. by left. }
  assert (A10 : forall w, w ∈ oc -> exists d q, d ∈ D /\ q ∈ outs_of G d /\ w = redirect a c q /\ (q ∉ D \/ q = a)).
  { intros w ->%elem_of_list_singleton. destruct Hex as (m & Hm). exists m, join. split; [apply HD; by right|]. split; [destruct (Halt m Hm) as (_ & ->); by left|].
    split; [by rewrite redirect_ne|]. left. intros [?|?]%HD; done. }
  assert (A11 : x ∈ D -> oc = redirect a c <$> outs_of G x) by (intros [->|?]%HD; done).
  assert (Hx' : x' c x D = x). { unfold x'. rewrite decide_False; [done|]. intros [->|?]%HD; done. }
  pose proof (look_z cx G G' c e x a R D oc I A1 A2 A3 A4 (not_eq_sym Hax) A5 A6 A7 A8 A9 A10 A11) as Hlz. fold (e' c e a) in *. rewrite Hx' in Hlz.
  assert (Hgood := inv_good _ _ _ _ _ _ I).
  assert (Hla : look G (K_of cx e x) a = Some (label na, oa)). { unfold look. rewrite Ea. cbn. by rewrite (K_out _ _ _ _ _ _ a I HaR Hax). }
  assert (Hlm : Forall2 (fun m l => look G (K_of cx e x) m = Some (l, [join])) oa ls).
  { apply Forall2_same_length_lookup_2; [by apply Forall2_length in Els|]. intros i m l Hm Hl. pose proof (Forall2_lookup_lr _ _ _ _ _ _ Els Hm Hl) as H. cbn in H.
    assert (Hin : m ∈ oa) by by eapply elem_of_list_lookup_2. destruct (Halt m Hin) as (_ & Ho). unfold look. destruct (G !! m) as [nm|] eqn:Em; [|done]. cbn in *. injection H as ->.
    rewrite (outs_of_some _ _ _ Em) in Ho. rewrite (K_out _ _ _ _ _ _ m I (HoaR m Hin)) by (intros ->; done). by rewrite Ho. }
  assert (Hlc : look G' (K_of cx (e' c e a) x) c = Some (Linear [label na; Branch ls], [join])).
  { unfold look, G'. rewrite lookup_insert. cbn. f_equal. f_equal. pose proof (inv_ctx _ _ _ _ _ _ I) as Hcx.
    destruct cx as [|K E1 X s]; cbn [K_of]; [by rewrite !lookup_empty|]. rewrite lookup_insert_ne by lia. destruct (K !! c) as [v|] eqn:E; [|done].
    destruct Hcx as (_ & _ & _ & _ & _ & _ & Hcx). apply Hcx in E. lia. }
  destruct (Hgood _ _ _ Hla) as (Hta & Hpa). specialize (Hpa Hlen).
  assert (Hls : fold_right and True (map (tree_ok None) ls)).
  { clear -Hlm Hgood. induction Hlm as [|m l o ls H _ IH]; cbn; [done|]. split; [|exact IH]. by destruct (Hgood _ _ _ H). }
  assert (Hlsn : ls <> []). { intros ->. apply Forall2_length in Els. rewrite Els in Hlen. cbn in Hlen. lia. }
  split; [done|]. split; [done|]. exists (R' c R D). split; [|split; [|split]].
  - rewrite <-Hx' at 1. eapply (collapse_inv cx G G' c e x a R D oc); [done..| ]. rewrite Hx'. intros n t o Hn. destruct (decide (n = c)) as [->|Hnc].
    + rewrite Hlc in Hn. injection Hn as <- <-. split; [|cbn; lia]. cbn. split; [done|]. split; [|done]. split; [done|]. split; [done|exact Hls].
    + destruct (decide (n ∈ D)) as [HnD|HnD]; [unfold look in Hn; by rewrite A8 in Hn|]. rewrite Hlz in Hn by done.
      destruct (look G (K_of cx e x) n) as [[t0 o0]|] eqn:E; [|done]. injection Hn as <- <-. destruct (Hgood _ _ _ E) as (H1 & H2). split; [done|]. by rewrite fmap_length.
  - eapply (collapse_frame cx G G' c e x a R D oc); done.
  - apply elem_R'. by right.
  - intros V ctl sem truth σ σ'. unfold behave.
    destruct (X_facts cx G G' c e x a R D oc I A1 A2 A3 A4 (not_eq_sym Hax) A5 A6 A7 A8 A9 A10 A11) as (HX1 & HX2 & HX3). rewrite Hx' in HX3.
    destruct (E_facts cx G G' c e x a R D oc I A1 A2 A3 A4 (not_eq_sym Hax) A5 A6 A7 A8 A9 A10 A11) as (HE1 & HE2 & HE3).
    change (redirect a c e) with (e' c e a). rewrite HE3.
    assert (HXD : X_of cx x ∉ D). { intros HXD. rewrite decide_True in HX3 by done. done. }
    apply (branch_run ctl sem truth _ _ (X_of cx x) a c join (label na) oa ls); [done|done|done|done|done| |done| | | |done| |done| |done].
    + eapply Forall2_same_length_lookup_2; [by apply Forall2_length in Hlm|]. intros i m l Hm Hl. split; [by eapply (Forall2_lookup_lr _ _ _ _ _ _ Hlm)|].
      intros ->. apply HXD, HD. right. by eapply elem_of_list_lookup_2.
    + intros p t o m Hp Hm Hq. apply (look_edge_D cx G G' c e x a R D oc I A1 A2 A3 A4 (not_eq_sym Hax) A5 A6 A7 A8 A9 A10 A11 p t o m Hp Hq); [apply HD; by right|by intros ->].
    + apply (look_c cx G G' c e x a R D oc I A1 A2 A3 A4 (not_eq_sym Hax) A5 A6 A7 A8 A9 A10 A11).
    + intros p t o Hp. apply (look_edge_c cx G G' c e x a R D oc I A1 A2 A3 A4 (not_eq_sym Hax) A5 A6 A7 A8 A9 A10 A11 p t o Hp).
    + intros z H1 H2 H3. apply Hlz; [|done]. intros [?|?]%HD; done.
    + intros Hb'. apply Haoa. rewrite <-HE2; [done|]. apply HD. by right.
Qed.
