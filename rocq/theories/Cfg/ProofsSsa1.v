(** SSA destruction: the pieces. *)
From stdpp Require Import tactics relations base list list_numbers fin_sets gmap fin_maps.
From Verif.Construct Require Import Model Spec.
From Verif.Cfg Require Import Model Spec ProofsBase.

(** intermediate blocks *)
Lemma find_some p ims i : find p ims = Some i -> (p, i) ∈ ims.
Proof.
  induction ims as [|[q j] ims IH]; [done|]. cbn. case_decide as H; [intros [= ->]; subst; by left|intros ?; right; auto].
Qed.
Lemma find_zip p ps s : p ∈ ps -> exists i, find p (intermediates ps s) = Some i.
Proof.
  unfold intermediates. revert s. induction ps as [|q ps IH]; intros s; [by intros ?%elem_of_nil|]. cbn. intros [->|Hin]%elem_of_cons.
  - rewrite decide_True by done. eauto.
  - case_decide; [eauto|]. by apply IH.
Qed.
Lemma ims_spec ps s p i : (p, i) ∈ intermediates ps s -> p ∈ ps /\ s <= i < s + length ps.
Proof.
  unfold intermediates. revert s. induction ps as [|q ps IH]; intros s; cbn; [by intros ?%elem_of_nil|]. intros [[= -> ->]|Hin]%elem_of_cons.
  - split; [by left|lia].
  - destruct (IH _ Hin) as (H1 & H2). split; [by right|lia].
Qed.
Lemma ims_inj ps s p q i : (p, i) ∈ intermediates ps s -> (q, i) ∈ intermediates ps s -> p = q.
Proof.
  unfold intermediates. revert s. induction ps as [|r ps IH]; intros s; cbn; [by intros ?%elem_of_nil|].
  intros [[= -> ->]|Hp]%elem_of_cons [Heq|Hq]%elem_of_cons.
  - by injection Heq.
  - apply ims_spec in Hq. lia.
  - injection Heq as -> ->. apply ims_spec in Hp. lia.
  - by eapply IH.
Qed.
Lemma insert_all_ne (f : nat -> block) ims (m : gmap nat block) k : (forall p, (p, k) ∉ ims) -> foldl (fun g i => <[i.2 := f i.1]> g) m ims !! k = m !! k.
Proof.
  revert m. induction ims as [|[p i] ims IH]; intros m Hk; [done|]. cbn. rewrite IH.
  - rewrite lookup_insert_ne; [done|]. intros ->. apply (Hk p). by left.
  - intros q Hq. apply (Hk q). by right.
Qed.
Lemma insert_all_eq (f : nat -> block) ims (m : gmap nat block) p k : (forall q, (q, k) ∈ ims -> q = p) -> (p, k) ∈ ims ->
  foldl (fun g i => <[i.2 := f i.1]> g) m ims !! k = Some (f p).
Proof.
  revert m. induction ims as [|[q i] ims IH]; intros m Hk Hin; [by apply elem_of_nil in Hin|]. cbn.
  destruct (decide ((p, k) ∈ ims)) as [Hr|Hno].
  - apply IH; [|done]. intros r Hr'. apply Hk. by right.
  - apply elem_of_cons in Hin as [[= -> ->]|Hin]; [|done]. rewrite insert_all_ne; [apply lookup_insert|].
    intros r Hr. assert (r = q) by (apply Hk; by right). subst r. done.
Qed.

(** phis *)
Lemma phi_moves_spec ps l v ms rest v' : phi_moves ps l v = Some (ms, rest, v') ->
  split_phis l = ((fun m => (m.1.1, m.2)) <$> ms, rest) /\ v' = v + length ms /\ (fun m => m.1.2) <$> ms = seq v (length ms).
Proof.
  revert v ms rest v'. induction l as [|[r ops|x] l IH]; intros v ms rest v'; cbn.
  - intros [= <- <- <-]. cbn. split; [done|]. split; [lia|done].
  - case_decide; [|done]. destruct (phi_moves ps l (S v)) as [[[ms0 rest0] v0]|] eqn:E; [|done]. intros [= <- <- <-].
    destruct (IH _ _ _ _ E) as (H1 & -> & H2). rewrite H1. cbn. split; [done|]. split; [lia|]. by rewrite <- H2.
  - intros [= <- <- <-]. cbn. split; [done|]. split; [lia|done].
Qed.
Lemma phi_moves_total ps l v : (forall r ops, (r, ops) ∈ (split_phis l).1 -> length ops = length ps /\ Forall (fun p => p.1 ∈ ps) ops) -> is_Some (phi_moves ps l v).
Proof.
  revert v. induction l as [|[r ops|x] l IH]; intros v H; cbn; [eauto| |eauto].
  cbn in H. destruct (split_phis l) as [phis rest] eqn:E. rewrite decide_True by (apply (H r); by left).
  destruct (IH (S v)) as ([[ms0 rest0] v0] & ->); [|cbn; eauto]. intros r' ops' Hin. apply (H r'). by right.
Qed.
Lemma NoDup_filter_single p (ops : list (nat * nat)) : NoDup (fst <$> ops) -> p ∈ fst <$> ops -> exists x, filter (fun q => q.1 = p) ops = [(p, x)] /\ (p, x) ∈ ops.
Proof.
  induction ops as [|[q y] ops IH]; intros Hnd Hin; [by apply elem_of_nil in Hin|]. cbn in Hnd, Hin. apply NoDup_cons in Hnd as (Hq & Hnd).
  apply elem_of_cons in Hin as [->|Hin].
  - exists y. rewrite filter_cons_True by done. split; [|by left]. f_equal. destruct (filter _ ops) as [|[a z] l] eqn:E; [done|].
    assert (H : (a, z) ∈ filter (fun x : nat * nat => x.1 = q) ops) by (rewrite E; by left). apply elem_of_list_filter in H as (Ha & H). cbn in Ha. subst a.
    exfalso. apply Hq. apply elem_of_list_fmap. by exists (q, z).
  - destruct (IH Hnd Hin) as (x & H1 & H2). exists x. rewrite filter_cons_False by (cbn; intros ->; done). split; [done|by right].
Qed.
(** what the intermediate block of p does *)
Lemma moves_of_spec p (ms : list (nat * nat * list (nat * nat))) vs : (forall m, m ∈ ms -> NoDup (fst <$> m.2)) ->
  mapM (fun m => operand p m.2) ((fun m => (m.1.1, m.2)) <$> ms : list (nat * list (nat * nat))) = Some vs ->
  moves_of p ms = (fun q => Tac (Assign q.1 q.2)) <$> zip ((fun m => m.1.2) <$> ms) vs.
Proof.
  revert vs. induction ms as [|[[r v] ops] ms IH]; intros vs Hnd Hm.
  - injection Hm as <-. done.
  - rewrite fmap_cons, mapM_cons_eq in Hm. cbn [snd fst] in Hm. destruct (operand p ops) as [x|] eqn:Hx; [|done]. cbn in Hm.
    destruct (mapM _ _) as [vs0|] eqn:E; [|done]. injection Hm as <-. cbn.
    assert (Hnd0 : NoDup (fst <$> ops)) by (apply (Hnd (r, v, ops)); by left).
    assert (Hin : p ∈ fst <$> ops).
    { unfold operand in Hx. destruct (filter _ ops) as [|[q y] l] eqn:Ef; [done|]. assert (H : (q, y) ∈ filter (fun x : nat * nat => x.1 = p) ops) by (rewrite Ef; by left).
      apply elem_of_list_filter in H as (Hq & H). cbn in Hq. subst q. apply elem_of_list_fmap. by exists (p, y). }
    destruct (NoDup_filter_single _ _ Hnd0 Hin) as (y & Hf & _). unfold operand in Hx. rewrite Hf in Hx |- *. injection Hx as <-.
    cbn. f_equal. apply IH; [|done]. intros m Hm. apply Hnd. by right.
Qed.

Section Stores.
  Context {V : Type} (sem : nat -> list V -> option (list V)) (truth : V -> bool).
  Implicit Types σ τ : nat -> V.
  (** stores that agree on the variables below v *)
  Definition agree (v : nat) (σ τ : nat -> V) : Prop := forall x, x < v -> σ x = τ x.
  Lemma agree_upd v x y σ τ : agree v σ τ -> agree v (upd x y σ) (upd x y τ).
  Proof using Type. intros H z Hz. unfold upd. case_decide; [done|]. by apply H. Qed.
  Lemma agree_upd_all v rs xs σ τ : agree v σ τ -> agree v (upd_all rs xs σ) (upd_all rs xs τ).
  Proof using Type.
    unfold upd_all. revert xs σ τ. induction rs as [|r rs IH]; intros [|x xs] σ τ H; cbn; try done. apply IH. by apply agree_upd.
  Qed.
  Lemma agree_map v (l : list nat) σ τ : (forall x, x ∈ l -> x < v) -> agree v σ τ -> map σ l = map τ l.
  Proof using Type.
    intros Hl Ha. induction l as [|x l IH]; [done|]. cbn. rewrite (Ha x) by (apply Hl; by left). f_equal. apply IH. intros y Hy. apply Hl. by right.
  Qed.
  Lemma exec_tac_agree v x σ σ' τ : (forall y, y ∈ tac_reads x -> y < v) -> agree v σ τ -> exec_tac sem truth x σ σ' ->
    exists τ', exec_tac sem truth x τ τ' /\ agree v σ' τ'.
  Proof using Type.
    intros Hx Ha. destruct x as [l r|p a b r|p|op ops res]; cbn in *.
    - intros ->. eexists. split; [done|]. rewrite (Ha r) by (apply Hx; by left). by apply agree_upd.
    - intros ->. eexists. split; [done|]. rewrite (Ha p), (Ha a), (Ha b) by (apply Hx; repeat first [by left|right]). by apply agree_upd.
    - intros ->. eauto.
    - intros (xs & Hs & Hlen & ->). exists (upd_all res xs τ). split; [exists xs; split; [|done]; by rewrite <- (agree_map v ops σ τ)|]. by apply agree_upd_all.
  Qed.
  Lemma exec_block_agree v l σ σ' τ : (forall x y, x ∈ l -> y ∈ tac_reads x -> y < v) -> agree v σ τ -> exec_block sem truth l σ σ' ->
    exists τ', exec_block sem truth l τ τ' /\ agree v σ' τ'.
  Proof using Type.
    revert σ τ. induction l as [|x l IH]; intros σ τ Hl Ha; cbn; [intros ->; eauto|]. intros (σ1 & H1 & H2).
    destruct (exec_tac_agree v x σ σ1 τ) as (τ1 & H3 & H4); [|done|done|]. { intros y Hy. apply (Hl x); [by left|done]. }
    destruct (IH σ1 τ1) as (τ' & H5 & H6); [|done|done|]. { intros z y Hz Hy. apply (Hl z); [by right|done]. }
    exists τ'. split; [eauto|done].
  Qed.
  (** sequences of assignments *)
  Definition assigns (l : list (nat * nat)) (σ : nat -> V) : nat -> V := foldl (fun σ p => upd p.1 (σ p.2) σ) σ l.
  Lemma exec_assigns l σ σ' : exec_block sem truth ((fun p => Assign p.1 p.2) <$> l) σ σ' <-> σ' = assigns l σ.
  Proof using Type.
    unfold assigns. revert σ. induction l as [|[x y] l IH]; intros σ; cbn; [done|]. split.
    - intros (σ1 & -> & H). by apply IH.
    - intros H. eexists. split; [done|]. by apply IH.
  Qed.
  Lemma assigns_other l σ x : (forall p, p ∈ l -> p.1 <> x) -> assigns l σ x = σ x.
  Proof using Type.
    unfold assigns. revert σ. induction l as [|[a b] l IH]; intros σ H; cbn; [done|]. rewrite IH by (intros p Hp; apply H; by right).
    unfold upd. rewrite decide_False; [done|]. intros ->. apply (H (a, b)); [by left|done].
  Qed.
  Lemma assigns_fresh v vs σ : (forall x, x ∈ vs -> x < v) ->
    agree v (assigns (zip (seq v (length vs)) vs) σ) σ /\ map (assigns (zip (seq v (length vs)) vs) σ) (seq v (length vs)) = map σ vs.
  Proof using Type.
    intros Hvs.
    assert (H : forall (ws : list nat) v0 τ, v <= v0 -> (forall x, x ∈ ws -> x < v) -> agree v (assigns (zip (seq v0 (length ws)) ws) τ) τ /\
      map (assigns (zip (seq v0 (length ws)) ws) τ) (seq v0 (length ws)) = map τ ws).
    { induction ws as [|w ws IH]; intros v0 τ Hv0 Hws; [done|]. cbn [length seq zip zip_with].
      change (assigns ((v0, w) :: zip (seq (S v0) (length ws)) ws) τ) with (assigns (zip (seq (S v0) (length ws)) ws) (upd v0 (τ w) τ)).
      destruct (IH (S v0) (upd v0 (τ w) τ)) as (IH1 & IH2); [lia|intros x Hx; apply Hws; by right|].
      assert (Hup : agree v (upd v0 (τ w) τ) τ). { intros x Hx. unfold upd. rewrite decide_False by lia. done. }
      split; [intros x Hx; rewrite IH1 by done; by apply Hup|]. cbn [map]. f_equal.
      - rewrite assigns_other.
        + unfold upd. by rewrite decide_True.
        + intros [a b] Hab. apply elem_of_zip_l in Hab. apply elem_of_seq in Hab. cbn. lia.
      - rewrite IH2. apply (agree_map v); [intros x Hx; apply Hws; by right|done]. }
    by apply H.
  Qed.
  Lemma assigns_results v n rs σ : length rs = n -> (forall r, r ∈ rs -> r < v) -> assigns (zip rs (seq v n)) σ = upd_all rs (map σ (seq v n)) σ.
  Proof using Type.
    intros <- Hrs.
    assert (H : forall (ws : list nat) v0 τ, v <= v0 -> (forall r, r ∈ ws -> r < v) ->
      assigns (zip ws (seq v0 (length ws))) τ = upd_all ws (map τ (seq v0 (length ws))) τ).
    { induction ws as [|w ws IH]; intros v0 τ Hv0 Hws; [done|]. cbn [length seq].
      change (assigns (zip (w :: ws) (v0 :: seq (S v0) (length ws))) τ) with (assigns (zip ws (seq (S v0) (length ws))) (upd w (τ v0) τ)).
      rewrite IH; [|lia|intros r Hr; apply Hws; by right]. cbn [map].
      assert (Hm : map (upd w (τ v0) τ) (seq (S v0) (length ws)) = map τ (seq (S v0) (length ws))).
      { apply map_ext_in. intros x Hx. apply elem_of_list_In, elem_of_seq in Hx. unfold upd. rewrite decide_False; [done|]. assert (w < v) by (apply Hws; by left). lia. }
      rewrite Hm. reflexivity. }
    by apply H.
  Qed.
  (** the undefined values at the beginning of the first block *)
  Lemma exec_undefs undef (rs : list nat) v σ : (forall r, r ∈ rs -> sem (undef r) [] = Some [σ r]) ->
    forall τ τ', agree v σ τ -> (forall r, r ∈ rs -> τ r = σ r) -> exec_block sem truth ((fun r => Op (undef r) [] [r]) <$> rs) τ τ' -> agree v σ τ'.
  Proof using Type.
    induction rs as [|r rs IH]; intros Hs τ τ' Ha Hr; cbn; [by intros ->|]. intros (τ1 & (xs & Hx & _ & ->) & H).
    rewrite (Hs r) in Hx by (by left). injection Hx as <-.
    assert (Heq : forall z, upd_all [r] [σ r] τ z = if decide (z = r) then σ r else τ z) by done.
    change (foldl (fun σ (p : nat * V) => upd p.1 p.2 σ) τ [(r, σ r)]) with (upd_all [r] [σ r] τ) in H. revert H Heq. generalize (upd_all [r] [σ r] τ). intros τ1 Hex Heq. eapply (IH (fun r' Hr' => Hs r' (elem_of_list_further _ _ _ Hr')) τ1); [| |exact Hex].
    - intros z Hz. rewrite Heq. case_decide; [by subst|by apply Ha].
    - intros r' Hr'. rewrite Heq. case_decide; [by subst|]. apply Hr. by right.
  Qed.
  Lemma exec_undefs_exists undef (rs : list nat) σ : (forall r, r ∈ rs -> exists u, sem (undef r) [] = Some [u]) ->
    forall τ, exists τ', exec_block sem truth ((fun r => Op (undef r) [] [r]) <$> rs) τ τ'.
  Proof using Type.
    induction rs as [|r rs IH]; intros Hs τ; cbn; [eauto|]. destruct (Hs r) as (u & Hu); [by left|].
    destruct (IH (fun r' Hr' => Hs r' (elem_of_list_further _ _ _ Hr')) (upd_all [r] [u] τ)) as (τ' & H). exists τ', (upd_all [r] [u] τ). split; [|done].
    exists [u]. done.
  Qed.
End Stores.
