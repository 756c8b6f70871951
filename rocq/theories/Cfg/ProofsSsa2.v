(** SSA destruction: one phi block. *)
From stdpp Require Import tactics relations base list list_numbers fin_sets gmap fin_maps.
From Verif.Construct Require Import Model Spec.
From Verif.Cfg Require Import Model Spec ProofsBase ProofsSsa1.

Lemma elem_preds g n p : p ∈ preds g n <-> edge g p n.
Proof.
  unfold preds. rewrite elem_of_remove_dups, elem_of_list_fmap. split.
  - intros ((q & m) & -> & H). apply elem_of_list_filter in H as (Hm & H). cbn in Hm. subst m. by apply elem_edges.
  - intros H. exists (p, n). split; [done|]. apply elem_of_list_filter. split; [done|]. by apply elem_edges.
Qed.
Lemma split_phis_elem l r ops i : split_phis l = (r, ops) -> i ∈ ops -> i ∈ l.
Proof.
  revert r ops. induction l as [|[r0 ops0|x] l IH]; intros r ops; cbn; [intros [= <- <-]; done| |intros [= <- <-]; done].
  destruct (split_phis l) as [a b] eqn:E. intros [= <- <-] Hi. right. by eapply IH.
Qed.
Lemma split_phis_phi l ps rest r ops : split_phis l = (ps, rest) -> (r, ops) ∈ ps -> Phi r ops ∈ l.
Proof.
  revert ps rest. induction l as [|[r0 ops0|x] l IH]; intros ps rest; cbn; [intros [= <- <-] H; by apply elem_of_nil in H| |intros [= <- <-] H; by apply elem_of_nil in H].
  destruct (split_phis l) as [a b] eqn:E. intros [= <- <-] [[= -> ->]|Hi]%elem_of_cons; [by left|]. right. by eapply IH.
Qed.
Lemma split_phis_last l ps rest x : split_phis l = (ps, rest) -> list.last l = Some (Tac x) -> list.last rest = Some (Tac x).
Proof.
  revert ps. induction l as [|[r0 ops0|y] l IH]; intros ps; cbn [split_phis]; [done| |intros [= <- <-]; done].
  destruct (split_phis l) as [a b] eqn:E. intros [= <- <-] Hl. destruct l as [|i l]; [done|]. by eapply IH.
Qed.

Lemma runs_inv {V} (ctl : V -> option nat) sem truth g prev k (σ σ' : nat -> V) : runs ctl sem truth g prev k σ σ' ->
  (k = exit /\ σ' = σ) \/ exists b σ1 m, blocks g !! k = Some b /\ exec_code sem truth prev (code b) σ σ1 /\ goes ctl b σ1 m /\ runs ctl sem truth g k m σ1 σ'.
Proof. destruct 1 as [|prev n b σ σ1 m σ' H1 H2 H3 H4]; [by left|right]. exists b, σ1, m. exact (conj H1 (conj H2 (conj H3 H4))). Qed.

Section Step.
  Context (undef : nat -> nat) (g : cfg) (s v first n : nat) (f b : block) (ms : list (nat * nat * list (nat * nat))) (rest : list instr) (v' : nat).
  Context (Hv : valid g) (Hu : unused g s v) (Hstart : start g = first) (Hf : blocks g !! first = Some f) (Hfp : has_phi f = false).
  Context (Hpre : forall p, edge g p first -> p = entry) (Hnf : first <> n) (Hb : blocks g !! n = Some b).
  Context (Hms : phi_moves (preds g n) (code b) v = Some (ms, rest, v')).
  Let ims := intermediates (preds g n) (S s).
  Let dv := divert_from n ims.
  Let undefs : list instr := reverse ((fun m => Tac (Op (undef m.1.1) [] [m.1.1])) <$> ms).
  Let asss : list instr := (fun m => Tac (Assign m.1.1 m.1.2)) <$> ms.
  Context (g' : cfg) (s' : nat) (v'' : nat) (Hstep : destruct_at undef first (g, s, v) n = Some (g', s', v'')).

  Lemma node_lt k : is_Some (blocks g !! k) -> k < s.
  Proof using Hu. apply (unused_nodes _ _ _ Hu). Qed.
  Lemma first_lt : first < s. Proof using Hu Hf. apply node_lt; eauto. Qed.
  Lemma n_lt : n < s. Proof using Hu Hb. apply node_lt; eauto. Qed.
  Lemma entry_lt : entry < s. Proof using Hu. clear -Hu. pose proof (unused_ends _ _ _ Hu). unfold entry, exit in *. lia. Qed.
  Lemma im_ge p i : (p, i) ∈ ims -> s < i /\ i < S s + length (preds g n) /\ edge g p n.
  Proof using Type. intros H. apply ims_spec in H as (H1 & H2). apply elem_preds in H1. clear -H1 H2. split; [lia|]. split; [lia|exact H1]. Qed.
  Lemma step_result : s' = S s + length (preds g n) /\ v'' = v' /\ start g' = first /\
    (forall k c, blocks g !! k = Some c -> k <> n -> k <> first -> blocks g' !! k = Some (Block (code c) (dv k <$> succ c))) /\
    blocks g' !! n = Some (Block rest (dv n <$> succ b)) /\
    blocks g' !! first = Some (Block (undefs ++ code f) (dv first <$> succ f)) /\
    blocks g' !! s = Some (Block asss [n]) /\
    (forall p i, (p, i) ∈ ims -> blocks g' !! i = Some (Block (moves_of p ms) [s])) /\
    (forall k, blocks g !! k = None -> k <> s -> (forall p, (p, k) ∉ ims) -> blocks g' !! k = None).
  Proof using All.
    pose proof first_lt as Hfs. pose proof n_lt as Hns. pose proof node_lt as Hlt. pose proof im_ge as Hge. clear Hpre Hfp.
    unfold destruct_at in Hstep. rewrite Hb in Hstep. cbn [mbind option_bind] in Hstep. rewrite Hms in Hstep. cbn [mbind option_bind] in Hstep.
    rewrite decide_False in Hstep by done.
    set (g1 := map_imap (fun p c => Some (Block (code c) (dv p <$> succ c))) (blocks g)) in *.
    set (g2 := <[s := Block asss [n]]> g1) in *.
    set (g3 := foldl (fun g i => <[i.2 := Block (moves_of i.1 ms) [s]]> g) g2 ims).
    change (foldl _ _ (intermediates (preds g n) (S s))) with g3 in Hstep.
    assert (H1 : forall k c, blocks g !! k = Some c -> g3 !! k = Some (Block (code c) (dv k <$> succ c))).
    { intros k c Hk. assert (k < s) by eauto. unfold g3. rewrite (insert_all_ne (fun p => Block (moves_of p ms) [s])).
      - unfold g2. rewrite lookup_insert_ne by lia. unfold g1. rewrite map_lookup_imap, Hk. done.
      - intros p Hp. apply Hge in Hp. lia. }
    assert (H2 : g3 !! s = Some (Block asss [n])).
    { unfold g3. rewrite (insert_all_ne (fun p => Block (moves_of p ms) [s])); [apply lookup_insert|]. intros p Hp. apply Hge in Hp. lia. }
    assert (H3 : forall p i, (p, i) ∈ ims -> g3 !! i = Some (Block (moves_of p ms) [s])).
    { intros p i Hi. unfold g3. apply (insert_all_eq (fun p => Block (moves_of p ms) [s])); [|done]. intros q Hq. by eapply ims_inj. }
    rewrite lookup_alter_ne in Hstep by done. rewrite (H1 _ _ Hf) in Hstep. cbn [mbind option_bind code succ] in Hstep. injection Hstep as <- <- <-.
    split; [lia|]. split; [done|]. split.
    { cbn. rewrite Hstart. unfold divert_from. by rewrite decide_False. }
    cbn [blocks]. repeat split.
    - intros k c Hk Hkn Hkf. rewrite lookup_insert_ne, lookup_alter_ne by done. by apply H1.
    - rewrite lookup_insert_ne by done. rewrite lookup_alter, (H1 _ _ Hb). done.
    - apply lookup_insert.
    - rewrite lookup_insert_ne, lookup_alter_ne by lia. done.
    - intros p i Hi. destruct (Hge _ _ Hi). rewrite lookup_insert_ne, lookup_alter_ne by lia. by apply H3.
    - intros k Hk Hks Hki. rewrite lookup_insert_ne, lookup_alter_ne by congruence. unfold g3. rewrite (insert_all_ne (fun p => Block (moves_of p ms) [s])) by done.
      unfold g2. rewrite lookup_insert_ne by done. unfold g1. by rewrite map_lookup_imap, Hk.
  Qed.
  Lemma dv_other p m : m <> n -> dv p m = m.
  Proof using Type. intros H. unfold dv, divert_from. by rewrite decide_False. Qed.
  Lemma dv_n p : edge g p n -> (p, dv p n) ∈ ims.
  Proof using Type.
    intros H%elem_preds. destruct (find_zip p _ (S s) H) as (i & Hi). unfold dv, divert_from. rewrite decide_True by done. unfold ims. rewrite Hi. by apply find_some.
  Qed.
  Lemma step_inv k d : blocks g' !! k = Some d ->
    (exists c, blocks g !! k = Some c /\ k < s /\ k <> n /\ k <> first /\ d = Block (code c) (dv k <$> succ c)) \/
    (k = n /\ d = Block rest (dv n <$> succ b)) \/ (k = first /\ d = Block (undefs ++ code f) (dv first <$> succ f)) \/
    (k = s /\ d = Block asss [n]) \/ (exists p, (p, k) ∈ ims /\ d = Block (moves_of p ms) [s]).
  Proof using All.
    intros Hk. pose proof node_lt as Hlt. destruct step_result as (_ & _ & _ & H1 & H2 & H3 & H4 & H5 & H6).
    destruct (blocks g !! k) as [c|] eqn:E.
    - destruct (decide (k = n)) as [->|Hkn]; [right; left; split; [done|]; congruence|].
      destruct (decide (k = first)) as [->|Hkf]; [do 2 right; left; split; [done|]; congruence|].
      left. exists c. rewrite (H1 _ _ E Hkn Hkf) in Hk. injection Hk as <-. repeat (split; [by eauto|]). done.
    - do 3 right. destruct (decide (k = s)) as [->|Hks]; [left; split; [done|]; congruence|]. right.
      destruct (list_find (fun q => q.2 = k) ims) as [[j [p k']]|] eqn:Ef.
      + apply list_find_Some in Ef as (Hj & Hk' & _). cbn in Hk'. subst k'. apply elem_of_list_lookup_2 in Hj. exists p. split; [done|].
        rewrite (H5 _ _ Hj) in Hk. by injection Hk as <-.
      + rewrite H6 in Hk; [done|done|done|]. intros p Hp. apply list_find_None in Ef. rewrite Forall_forall in Ef. by apply (Ef _ Hp).
  Qed.
  Lemma step_edge p m : edge g' p m <-> (exists m0, edge g p m0 /\ m = dv p m0) \/ (p = s /\ m = n) \/ (exists q, (q, p) ∈ ims /\ m = s).
  Proof using All.
    pose proof dv_other as Hdv. destruct step_result as (_ & _ & Hst & H1 & H2 & H3 & H4 & H5 & _). split.
    - intros [(-> & ->)|(d & Hd & Hin)].
      + left. exists first. split; [left; by rewrite Hstart|]. rewrite Hst. symmetry. by apply Hdv.
      + apply step_inv in Hd as [(c & Hc & _ & _ & _ & ->)|[(-> & ->)|[(-> & ->)|[(-> & ->)|(q & Hq & ->)]]]]; cbn [succ] in Hin.
        * apply elem_of_list_fmap in Hin as (m0 & -> & Hin). left. exists m0. split; [right; eauto|done].
        * apply elem_of_list_fmap in Hin as (m0 & -> & Hin). left. exists m0. split; [right; eauto|done].
        * apply elem_of_list_fmap in Hin as (m0 & -> & Hin). left. exists m0. split; [right; eauto|done].
        * apply elem_of_list_singleton in Hin. right. by left.
        * apply elem_of_list_singleton in Hin. right. right. eauto.
    - intros [(m0 & [(-> & ->)|(c & Hc & Hin)] & ->)|[(-> & ->)|(q & Hq & ->)]].
      + left. split; [done|]. rewrite Hst, Hstart. by apply Hdv.
      + right. destruct (decide (p = n)) as [->|Hpn].
        { eexists. split; [exact H2|]. cbn. apply elem_of_list_fmap. exists m0. split; [done|]. congruence. }
        destruct (decide (p = first)) as [->|Hpf].
        { eexists. split; [exact H3|]. cbn. apply elem_of_list_fmap. exists m0. split; [done|]. congruence. }
        eexists. split; [by apply H1|]. cbn. apply elem_of_list_fmap. eauto.
      + right. eexists. split; [exact H4|]. by left.
      + right. eexists. split; [by apply H5|]. by left.
  Qed.
  (** the predecessors of a block that is not the phi block stay *)
  Lemma step_pred p k : k < s -> k <> n -> edge g' p k <-> edge g p k.
  Proof using All.
    intros Hk Hkn. rewrite step_edge. pose proof dv_other as Hdv. pose proof dv_n as Hdn. pose proof im_ge as Hge. split.
    - intros [(m0 & Hm & ->)|[(-> & ->)|(q & Hq & ->)]]; [|done|lia].
      destruct (decide (m0 = n)) as [->|Hm0]; [|by rewrite Hdv]. apply Hdn in Hm. apply Hge in Hm. lia.
    - intros Hpk. left. exists k. by rewrite Hdv.
  Qed.
  Lemma rest_plain : (exists ts, plain rest = Some ts) /\ split_phis rest = ([], rest) /\ (forall r ops, (r, ops) ∈ (fun m => (m.1.1, m.2)) <$> ms ->
    Phi r ops ∈ code b /\ NoDup (fst <$> ops) /\ forall p, p ∈ fst <$> ops <-> edge g p n).
  Proof using Hv Hb Hms.
    destruct (phi_moves_spec _ _ _ _ _ _ Hms) as (Hsp & _ & _). destruct (valid_blocks _ Hv _ _ Hb) as (_ & _ & (ts & H3) & H4).
    rewrite Hsp in H3, H4. cbn [fst snd] in *. split; [eauto|]. split.
    - apply plain_spec in H3. rewrite H3. by destruct ts.
    - intros r ops Hin. split; [|exact (H4 r ops Hin)]. by eapply split_phis_phi.
  Qed.
  Lemma code_plain_head l : Forall (fun i => exists x, i = Tac x) l -> split_phis l = ([], l) /\ exists ts, plain l = Some ts.
  Proof using Type.
    intros Hl. split; [by destruct Hl as [|i l (x & ->) _]|]. induction Hl as [|i l (x & ->) _ (ts & IH)]; [by exists []|]. rewrite plain_cons, IH. eauto.
  Qed.
  Lemma undefs_tac : Forall (fun i => exists x, i = Tac x) undefs.
  Proof using Type. apply Forall_forall. intros i Hi. unfold undefs in Hi. rewrite elem_of_reverse in Hi. apply elem_of_list_fmap in Hi as (m & -> & _). eauto. Qed.
  Lemma asss_tac : Forall (fun i => exists x, i = Tac x) asss.
  Proof using Type. apply Forall_forall. intros i Hi. apply elem_of_list_fmap in Hi as (m & -> & _). eauto. Qed.
  Lemma moves_elem p i : i ∈ moves_of p ms -> exists m q, m ∈ ms /\ q ∈ m.2 /\ i = Tac (Assign m.1.2 q.2).
  Proof using Type.
    unfold moves_of. rewrite elem_of_list_bind. intros ([[r w] ops] & Hi & Hm). apply elem_of_list_bind in Hi as (q & Hi & Hq).
    apply elem_of_list_singleton in Hi. apply elem_of_list_filter in Hq as (_ & Hq). by exists (r, w, ops), q.
  Qed.
  Lemma moves_tac p : Forall (fun i => exists x, i = Tac x) (moves_of p ms).
  Proof using Type. apply Forall_forall. intros i Hi. apply moves_elem in Hi as (m & q & _ & _ & ->). eauto. Qed.
  Lemma first_code : split_phis (undefs ++ code f) = ([], undefs ++ code f) /\ exists ts, plain (undefs ++ code f) = Some ts.
  Proof using Hv Hf Hfp.
    pose proof (no_phi_head _ Hfp) as Hh. destruct (code_plain_head _ undefs_tac) as (H1 & ts & H2). rewrite (split_phis_app _ _ Hh), H1. split; [done|].
    destruct (valid_blocks _ Hv _ _ Hf) as (_ & _ & (tf & H3) & _). rewrite (split_phis_none _ Hh) in H3. cbn in H3. exists (ts ++ tf). by rewrite plain_app, H2, H3.
  Qed.

  Lemma step_valid : valid g'.
  Proof using All.
    pose proof n_lt as Hns. pose proof first_lt as Hfs. pose proof entry_lt as Hes. pose proof (unused_ends _ _ _ Hu) as Hxs. pose proof im_ge as Hge. pose proof dv_other as Hdv. pose proof dv_n as Hdn.
    destruct (valid_ends _ Hv) as (He & Hx). pose proof rest_plain as (Hr1 & Hr2 & Hr3). destruct (phi_moves_spec _ _ _ _ _ _ Hms) as (Hsp & _ & _).
    pose proof step_result as (_ & _ & Hst & H1 & H2 & H3 & H4 & H5 & H6). split.
    - split; (apply H6; [done|lia|]); intros p Hp; apply Hge in Hp; lia.
    - intros p m Hpm. apply step_edge in Hpm as [(m0 & Hm & ->)|[(-> & ->)|(q & Hq & ->)]].
      + destruct (decide (m0 = n)) as [->|Hm0]; [right; apply Hdn in Hm; erewrite H5 by done; eauto|]. rewrite Hdv by done.
        destruct (valid_edges _ Hv _ _ Hm) as [->|(c & Hc)]; [by left|right]. destruct (decide (m0 = first)) as [->|]; [rewrite H3; eauto|]. erewrite H1 by done. eauto.
      + right. rewrite H2. eauto.
      + right. rewrite H4. eauto.
    - intros k d Hd. apply step_inv in Hd as [(c & Hc & Hk & Hkn & Hkf & ->)|[(-> & ->)|[(-> & ->)|[(-> & ->)|(q & Hq & ->)]]]]; cbn [succ code]; unfold valid_phis; cbn [code].
      + destruct (valid_blocks _ Hv _ _ Hc) as (G1 & G2 & G3 & G4). split; [by destruct (succ c)|]. split; [by rewrite fmap_length|]. split; [done|].
        intros r ops Hin. destruct (G4 r ops Hin) as (Hnd & Hiff). split; [done|]. intros p. by rewrite Hiff, step_pred.
      + destruct (valid_blocks _ Hv _ _ Hb) as (G1 & G2 & G3 & G4). split; [by destruct (succ b)|]. split.
        { rewrite fmap_length. intros Hl. destruct (G2 Hl) as (p & Hp). exists p. by eapply split_phis_last. }
        rewrite Hr2. cbn. split; [done|]. intros r ops Hin. by apply elem_of_nil in Hin.
      + destruct (valid_blocks _ Hv _ _ Hf) as (G1 & G2 & G3 & G4). destruct first_code as (F1 & F2). split; [by destruct (succ f)|]. split.
        { rewrite fmap_length. intros Hl. destruct (G2 Hl) as (p & Hp). exists p. by rewrite last_app, Hp. }
        rewrite F1. cbn. split; [done|]. intros r ops Hin. by apply elem_of_nil in Hin.
      + split; [done|]. split; [by intros []|]. destruct (code_plain_head _ asss_tac) as (F1 & F2). rewrite F1. cbn. split; [done|]. intros r ops Hin. by apply elem_of_nil in Hin.
      + split; [done|]. split; [by intros []|]. destruct (code_plain_head _ (moves_tac q)) as (F1 & F2). rewrite F1. cbn. split; [done|]. intros r ops Hin. by apply elem_of_nil in Hin.
  Qed.
  Lemma ms_vars m : m ∈ ms -> m.1.1 < v /\ v <= m.1.2 < v'.
  Proof using Hb Hms Hu Hv.
    intros Hm. destruct (phi_moves_spec _ _ _ _ _ _ Hms) as (Hsp & Hvl & Hseq). split.
    - destruct rest_plain as (_ & _ & Hr3). destruct (Hr3 m.1.1 m.2) as (Hin & _). { apply elem_of_list_fmap. by exists m. }
      eapply (unused_vars _ _ _ Hu); [exact Hb|exact Hin|]. by left.
    - assert (H : m.1.2 ∈ seq v (length ms)). { rewrite <- Hseq. apply elem_of_list_fmap. by exists m. } apply elem_of_seq in H. clear -H Hvl. lia.
  Qed.
  Lemma ms_ops m q : m ∈ ms -> q ∈ m.2 -> q.2 < v.
  Proof using Hb Hms Hu Hv.
    intros Hm Hq. destruct rest_plain as (_ & _ & Hr3). destruct (Hr3 m.1.1 m.2) as (Hin & _). { apply elem_of_list_fmap. by exists m. }
    eapply (unused_vars _ _ _ Hu); [exact Hb|exact Hin|]. right. apply elem_of_list_fmap. by exists q.
  Qed.
  Lemma v_le : v <= v'.
  Proof using Hms. destruct (phi_moves_spec _ _ _ _ _ _ Hms) as (_ & H & _). clear -H. lia. Qed.
  Lemma step_unused : unused g' s' v''.
  Proof using All.
    pose proof n_lt as Hns. pose proof first_lt as Hfs. pose proof (unused_ends _ _ _ Hu) as Hxs. pose proof im_ge as Hge. pose proof ms_vars as Hmv. pose proof ms_ops as Hmo. pose proof v_le as Hvv.
    pose proof rest_plain as (Hr1 & Hr2 & Hr3). destruct (phi_moves_spec _ _ _ _ _ _ Hms) as (Hsp & _ & _).
    pose proof step_inv as Hinv. pose proof moves_elem as Hmoves. pose proof step_result as (Hs' & Hv'' & _). split.
    - lia.
    - intros k (d & Hd). apply Hinv in Hd as [(c & Hc & Hk & Hkn & Hkf & ->)|[(-> & ->)|[(-> & ->)|[(-> & ->)|(q & Hq & ->)]]]]; try lia. apply Hge in Hq. lia.
    - pose proof (unused_vars _ _ _ Hu) as Huv.
      intros k d i x Hd Hi Hx. apply Hinv in Hd as [(c & Hc & Hk & Hkn & Hkf & ->)|[(-> & ->)|[(-> & ->)|[(-> & ->)|(q & Hq & ->)]]]]; cbn [code] in Hi.
      + pose proof (Huv _ _ _ _ Hc Hi Hx). lia.
      + assert (Hi' : i ∈ code b) by by eapply split_phis_elem. pose proof (Huv _ _ _ _ Hb Hi' Hx). lia.
      + apply elem_of_app in Hi as [Hi|Hi]; [|pose proof (Huv _ _ _ _ Hf Hi Hx); lia].
        unfold undefs in Hi. rewrite elem_of_reverse in Hi. apply elem_of_list_fmap in Hi as (m & -> & Hm). cbn in Hx. apply elem_of_list_singleton in Hx. subst x. apply Hmv in Hm. lia.
      + apply elem_of_list_fmap in Hi as (m & -> & Hm). apply Hmv in Hm. cbn in Hx. apply elem_of_cons in Hx as [->|Hx]; [lia|]. apply elem_of_list_singleton in Hx. subst. lia.
      + apply Hmoves in Hi as (m & y & Hm & Hy & ->). pose proof (Hmo _ _ Hm Hy). apply Hmv in Hm. cbn in Hx. apply elem_of_cons in Hx as [->|Hx]; [lia|]. apply elem_of_list_singleton in Hx. subst. lia.
  Qed.
  (** behaviour *)
  Context {V : Type} (ctl : V -> option nat) (sem : nat -> list V -> option (list V)) (truth : V -> bool).
  Implicit Types σ τ : nat -> V.
  Let rs := (fun m : nat * nat * list (nat * nat) => m.1.1) <$> ms.
  Notation vars := (seq v (length ms)).
  Lemma exec_code_tacs q l ts σ σ' : l = Tac <$> ts -> exec_code sem truth q l σ σ' <-> exec_block sem truth ts σ σ'.
  Proof using Type.
    intros ->. unfold exec_code. assert (Hs : split_phis (Tac <$> ts) = ([], Tac <$> ts)) by by destruct ts. rewrite Hs. cbn [fst snd]. split.
    - intros (vs & ts' & [= <-] & Hp & H). assert (Hp' : plain (Tac <$> ts) = Some ts) by by apply plain_spec. rewrite Hp' in Hp. injection Hp as <-. done.
    - intros H. exists [], ts. split; [done|]. split; [by apply plain_spec|done].
  Qed.
  Lemma phi_values p : edge g p n -> exists vs, mapM (fun q => operand p q.2) (split_phis (code b)).1 = Some vs /\ length vs = length ms /\
    (forall x, x ∈ vs -> x < v) /\ moves_of p ms = Tac <$> ((fun q => Assign q.1 q.2) <$> zip vars vs).
  Proof using Hv Hb Hms Hu.
    intros Hp. destruct rest_plain as (_ & _ & Hr). destruct (phi_moves_spec _ _ _ _ _ _ Hms) as (Hsp & _ & Hseq). rewrite Hsp. cbn [fst].
    assert (H : exists vs, mapM (fun q => operand p q.2) ((fun m => (m.1.1, m.2)) <$> ms : list (nat * list (nat * nat))) = Some vs).
    { apply mapM_is_Some. apply Forall_forall. intros [r ops] Hin. destruct (Hr r ops Hin) as (_ & Hnd & Hiff). apply Hiff in Hp.
      destruct (NoDup_filter_single _ _ Hnd Hp) as (x & Hx & _). cbn. unfold operand. rewrite Hx. cbn. eauto. }
    destruct H as (vs & H). exists vs. split; [done|]. split; [apply mapM_length in H; by rewrite <- H, fmap_length|]. split.
    - intros x Hx. apply mapM_Some_1 in H. apply elem_of_list_lookup in Hx as (i & Hi). pose proof (Forall2_lookup_r _ _ _ _ _ H Hi) as ([r ops] & Hq & Hop).
      apply elem_of_list_lookup_2 in Hq. destruct (Hr r ops Hq) as (Hphi & _). eapply (unused_vars _ _ _ Hu); [exact Hb|exact Hphi|]. right.
      unfold operand in Hop. cbn in Hop. destruct (filter _ ops) as [|y l] eqn:E; [done|]. injection Hop as <-. apply elem_of_list_fmap. exists y. split; [done|].
      assert (Hy : y ∈ filter (fun q : nat * nat => q.1 = p) ops) by (rewrite E; by left). by apply elem_of_list_filter in Hy as (_ & Hy).
    - rewrite <- Hseq. rewrite <- list_fmap_compose. apply moves_of_spec; [|done]. intros m Hm. destruct (Hr m.1.1 m.2) as (_ & Hnd & _); [|done].
      apply elem_of_list_fmap. by exists m.
  Qed.
  Lemma asss_eq : asss = Tac <$> ((fun q => Assign q.1 q.2) <$> zip rs vars).
  Proof using Hms.
    destruct (phi_moves_spec _ _ _ _ _ _ Hms) as (_ & _ & Hseq). rewrite <- Hseq. unfold asss, rs. clear. induction ms as [|m ms' IH]; [done|]. cbn. by rewrite IH.
  Qed.
  Lemma rs_lt r : r ∈ rs -> r < v.
  Proof using Hb Hms Hu Hv. intros Hr. apply elem_of_list_fmap in Hr as (m & -> & Hm). by apply ms_vars. Qed.
  Lemma rs_length : length rs = length ms.
  Proof using Type. unfold rs. by rewrite fmap_length. Qed.
  Lemma agree_sym w σ τ : agree w σ τ -> agree w τ σ. Proof using Type. intros H x Hx. symmetry. by apply H. Qed.
  Lemma agree_trans w σ τ υ : agree w σ τ -> agree w τ υ -> agree w σ υ. Proof using Type. intros H1 H2 x Hx. rewrite H1 by done. by apply H2. Qed.
  (** after the assignment block *)
  Lemma after_moves vs σ τ : length vs = length ms -> (forall x, x ∈ vs -> x < v) -> agree v σ τ ->
    let τ1 := assigns (zip vars vs) τ in agree v σ τ1 /\ map τ1 vars = map σ vs.
  Proof using Type.
    intros Hlen Hvs Ha. rewrite <- Hlen. destruct (assigns_fresh v vs τ Hvs) as (H1 & H2). split; [eapply agree_trans; [exact Ha|]; by apply agree_sym|].
    rewrite H2. symmetry. by apply (agree_map v).
  Qed.
  Lemma after_asss vs σ τ1 : agree v σ τ1 -> map τ1 vars = map σ vs -> agree v (upd_all rs (map σ vs) σ) (assigns (zip rs vars) τ1).
  Proof using Hb Hms Hu Hv.
    intros Ha Hm. rewrite (assigns_results v (length ms)); [|apply rs_length|apply rs_lt]. rewrite Hm. by apply agree_upd_all.
  Qed.
  Lemma exec_phi_block p vs σ σ1 : mapM (fun q => operand p q.2) (split_phis (code b)).1 = Some vs ->
    exec_code sem truth p (code b) σ σ1 <-> exists ts, rest = Tac <$> ts /\ exec_block sem truth ts (upd_all rs (map σ vs) σ) σ1.
  Proof using Hms.
    intros Hvs. destruct (phi_moves_spec _ _ _ _ _ _ Hms) as (Hsp & _ & _). unfold exec_code.
    assert (Hrs : fst <$> (split_phis (code b)).1 = rs). { rewrite Hsp. cbn [fst]. unfold rs. by rewrite <- list_fmap_compose. }
    rewrite Hrs. split.
    - intros (vs' & ts & Hvs' & Hts & H). rewrite Hvs in Hvs'. injection Hvs' as <-. exists ts. split; [|done]. rewrite Hsp in Hts. by apply plain_spec.
    - intros (ts & Hts & H). exists vs, ts. split; [done|]. split; [|done]. rewrite Hsp. by apply plain_spec.
  Qed.
  Lemma goes_agree k c σ τ m : blocks g !! k = Some c -> agree v σ τ -> goes ctl c σ m -> goes ctl c τ m.
  Proof using Hu.
    intros Hc Ha. unfold goes. destruct (succ c) as [|x [|y l]]; [|done|]; intros (p & i & Hl & Hi & Hm); exists p, i; (split; [done|]); (split; [|done]); rewrite <- (Ha p); try done.
    all: apply (unused_vars _ _ _ Hu k c (Tac (BranchOn p)) p Hc); [by apply last_Some_elem_of|by left].
  Qed.
  Lemma exec_code_agree k c prev σ σ1 τ : blocks g !! k = Some c -> agree v σ τ -> exec_code sem truth prev (code c) σ σ1 ->
    exists τ1, exec_code sem truth prev (code c) τ τ1 /\ agree v σ1 τ1.
  Proof using Hu Hv.
    intros Hc Ha (vs & ts & Hvs & Hts & Hex). destruct (split_phis (code c)) as [phis rst] eqn:Esp. cbn [fst snd] in *.
    assert (Hlt : forall x, x ∈ vs -> x < v).
    { intros x Hx. apply mapM_Some_1 in Hvs. apply elem_of_list_lookup in Hx as (i & Hi). pose proof (Forall2_lookup_r _ _ _ _ _ Hvs Hi) as ([r ops] & Hq & Hop).
      apply elem_of_list_lookup_2 in Hq. pose proof (split_phis_phi _ _ _ _ _ Esp Hq) as Hphi. eapply (unused_vars _ _ _ Hu); [exact Hc|exact Hphi|]. right.
      unfold operand in Hop. cbn in Hop. destruct (filter _ ops) as [|y l] eqn:E; [done|]. injection Hop as <-. apply elem_of_list_fmap. exists y. split; [done|].
      assert (Hy : y ∈ filter (fun q : nat * nat => q.1 = prev) ops) by (rewrite E; by left). by apply elem_of_list_filter in Hy as (_ & Hy). }
    destruct (exec_block_agree sem truth v ts (upd_all (fst <$> phis) (map σ vs) σ) σ1 (upd_all (fst <$> phis) (map τ vs) τ)) as (τ1 & H1 & H2).
    - intros x y Hx Hy. apply plain_spec in Hts. subst rst. eapply (unused_vars _ _ _ Hu _ _ (Tac x)); [exact Hc| |].
      + eapply split_phis_elem; [exact Esp|]. by apply elem_of_list_fmap_1.
      + cbn. apply elem_of_app. by left.
    - rewrite (agree_map v vs σ τ) by done. by apply agree_upd_all.
    - done.
    - exists τ1. split; [|done]. exists vs, ts. rewrite Esp. done.
  Qed.
  Lemma rest_agree ts σ σ1 τ : rest = Tac <$> ts -> agree v σ τ -> exec_block sem truth ts σ σ1 -> exists τ1, exec_block sem truth ts τ τ1 /\ agree v σ1 τ1.
  Proof using Hb Hms Hu.
    intros Hts Ha. destruct (phi_moves_spec _ _ _ _ _ _ Hms) as (Hsp & _ & _). apply exec_block_agree; [|done].
    intros x y Hx Hy. eapply (unused_vars _ _ _ Hu _ _ (Tac x)); [exact Hb| |].
    - eapply split_phis_elem; [exact Hsp|]. rewrite Hts. by apply elem_of_list_fmap_1.
    - cbn. apply elem_of_app. by left.
  Qed.
  Lemma rest_last : length (succ b) <> 1 -> list.last rest = list.last (code b).
  Proof using Hb Hms Hv.
    intros Hl. destruct (phi_moves_spec _ _ _ _ _ _ Hms) as (Hsp & _ & _). destruct (valid_blocks _ Hv _ _ Hb) as (_ & G2 & _). destruct (G2 Hl) as (p & Hp).
    rewrite Hp. by eapply split_phis_last.
  Qed.
  Lemma first_last : length (succ f) <> 1 -> list.last (undefs ++ code f) = list.last (code f).
  Proof using Hf Hv.
    intros Hl. destruct (valid_blocks _ Hv _ _ Hf) as (_ & G2 & _). destruct (G2 Hl) as (p & Hp). by rewrite last_app, Hp.
  Qed.
  Lemma to_not_first k c σ m : blocks g !! k = Some c -> goes ctl c σ m -> m <> first /\ edge g k m.
  Proof using Hv Hpre.
    intros Hc Hgo. assert (He : edge g k m). { right. exists c. split; [done|]. by eapply goes_in. } split; [|done]. intros ->. apply Hpre in He. subst k.
    destruct (valid_ends _ Hv). congruence.
  Qed.
  Lemma step_to prev k σ σ' : runs ctl sem truth g prev k σ σ' -> k <> first -> (k = n -> edge g prev n) -> forall τ, agree v σ τ ->
    exists τ', agree v σ' τ' /\ runs ctl sem truth g' prev (dv prev k) τ τ'.
  Proof using All.
    pose proof to_not_first as Htnf. pose proof dv_other as Hdv. pose proof dv_n as Hdn. destruct (valid_ends _ Hv) as (He & Hx).
    pose proof step_result as (_ & _ & Hst & H1 & H2 & H3 & H4 & H5 & H6).
    induction 1 as [prev σ|prev k c σ σ1 m σ' Hc Hex Hgo Hr IH]; intros Hkf Hkn τ Ha.
    - exists τ. split; [done|]. rewrite Hdv by congruence. constructor.
    - destruct (Htnf _ _ _ _ Hc Hgo) as (Hmf & Hkm). specialize (IH Hmf ltac:(by intros ->)).
      destruct (decide (k = n)) as [Hkeq|Hne].
      + subst k. specialize (Hkn eq_refl). assert (c = b) by congruence. subst c.
        destruct (phi_values prev Hkn) as (vs & Hvs & Hlen & Hlt & Hmoves).
        apply (exec_phi_block prev vs) in Hex as (ts & Hts & Hex); [|done].
        destruct (after_moves vs σ τ Hlen Hlt Ha) as (A1 & A2). set (τ1 := assigns (zip vars vs) τ) in *.
        pose proof (after_asss vs σ τ1 A1 A2) as A3. set (τ2 := assigns (zip rs vars) τ1) in *.
        destruct (rest_agree ts _ _ τ2 Hts A3 Hex) as (τ3 & Hex3 & A4). destruct (IH _ A4) as (τ' & A5 & Hr'). exists τ'. split; [done|].
        eapply runs_block; [apply H5; by apply Hdn| |by cbn|].
        { cbn [code]. apply (exec_code_tacs _ _ _ _ _ Hmoves). by apply exec_assigns. }
        eapply runs_block; [exact H4| |by cbn|].
        { cbn [code]. apply (exec_code_tacs _ _ _ _ _ asss_eq). by apply exec_assigns. }
        eapply runs_block; [exact H2| | |exact Hr'].
        { cbn [code]. apply (exec_code_tacs _ _ _ _ _ Hts). exact Hex3. }
        { eapply (goes_map ctl (dv n) b); [done|apply rest_last|]. by eapply goes_agree. }
      + rewrite Hdv by done. destruct (exec_code_agree k c prev σ σ1 τ Hc Ha Hex) as (τ1 & Hex1 & A1). destruct (IH _ A1) as (τ' & A5 & Hr'). exists τ'. split; [done|].
        eapply runs_block; [by apply H1|exact Hex1| |exact Hr']. eapply (goes_map ctl (dv k) c); [done|done|]. by eapply goes_agree.
  Qed.
  Lemma step_from prev k τ τ' : runs ctl sem truth g' prev k τ τ' ->
    (k < s -> k <> n -> k <> first -> forall σ, agree v τ σ -> exists σ', agree v τ' σ' /\ runs ctl sem truth g prev k σ σ') /\
    (forall p, (p, k) ∈ ims -> forall σ, agree v τ σ -> exists σ', agree v τ' σ' /\ runs ctl sem truth g p n σ σ') /\
    (k = s -> forall p vs σ, edge g p n -> mapM (fun q => operand p q.2) (split_phis (code b)).1 = Some vs -> agree v τ σ -> map τ vars = map σ vs ->
       exists σ', agree v τ' σ' /\ runs ctl sem truth g p n σ σ') /\
    (k = n -> forall p vs σ, edge g p n -> mapM (fun q => operand p q.2) (split_phis (code b)).1 = Some vs -> agree v τ (upd_all rs (map σ vs) σ) ->
       exists σ', agree v τ' σ' /\ runs ctl sem truth g p n σ σ').
  Proof using All.
    pose proof to_not_first as Htnf. pose proof dv_other as Hdv. pose proof dv_n as Hdn. destruct (valid_ends _ Hv) as (He & Hx). pose proof (unused_ends _ _ _ Hu) as Hxs.
    pose proof n_lt as Hns. pose proof im_ge as Hge. pose proof step_inv as Hinv. pose proof node_lt as Hlt.
    pose proof step_result as (_ & _ & Hst & H1 & H2 & H3 & H4 & H5 & H6).
    (* the next node of an old block *)
    assert (Hnext : forall k c σ1 m τ1 τ', blocks g !! k = Some c -> goes ctl c σ1 m -> agree v τ1 σ1 ->
      (dv k m < s -> dv k m <> n -> dv k m <> first -> forall σ, agree v τ1 σ -> exists σ', agree v τ' σ' /\ runs ctl sem truth g k (dv k m) σ σ') ->
      (forall p, (p, dv k m) ∈ ims -> forall σ, agree v τ1 σ -> exists σ', agree v τ' σ' /\ runs ctl sem truth g p n σ σ') ->
      exists σ', agree v τ' σ' /\ runs ctl sem truth g k m σ1 σ').
    { intros k0 c σ1 m τ1 τ2 Hc Hgo Ha IA IB. destruct (Htnf _ _ _ _ Hc Hgo) as (Hmf & Hkm). destruct (decide (m = n)) as [->|Hmn].
      - by apply (IB k0 (Hdn _ Hkm)).
      - rewrite Hdv in IA by done. apply IA; [|done|done|done]. destruct (valid_edges _ Hv _ _ Hkm) as [->|HS]; [done|by apply Hlt]. }
    induction 1 as [prev τ|prev k d τ τ1 m τ' Hd Hex Hgo Hr (IA & IB & IC & ID)].
    - split; [intros _ _ _ σ Ha; exists σ; split; [done|constructor]|]. split; [intros p Hp; apply Hge in Hp; lia|]. split; [lia|]. intros Heq. congruence.
    - split; [|split; [|split]].
      + intros Hks Hkn Hkf σ Ha. apply Hinv in Hd as [(c & Hc & _ & _ & _ & ->)|[(-> & ->)|[(-> & ->)|[(-> & ->)|(q & Hq & ->)]]]]; try done; [|lia|apply Hge in Hq; lia].
        cbn [code] in Hex. destruct (exec_code_agree k c prev τ τ1 σ Hc Ha Hex) as (σ1 & Hex1 & A1).
        destruct (goes_unmap ctl (dv k) c (Block (code c) (dv k <$> succ c)) τ1 m) as (m0 & Hgo0 & ->); [done|done|done|].
        assert (Hgo1 : goes ctl c σ1 m0) by by eapply goes_agree.
        destruct (Hnext k c σ1 m0 τ1 τ' Hc Hgo1 A1) as (σ' & A2 & Hr2); [exact IA|exact IB|]. exists σ'. split; [done|]. by eapply runs_block.
      + intros p Hp σ Ha. assert (Hpn : edge g p n) by exact (proj2 (proj2 (Hge _ _ Hp))). rewrite (H5 _ _ Hp) in Hd. injection Hd as <-. cbn [code] in Hex. cbn in Hgo. subst m.
        destruct (phi_values p Hpn) as (vs & Hvs & Hlen & Hltv & Hmoves). apply (exec_code_tacs _ _ _ _ _ Hmoves) in Hex. apply exec_assigns in Hex. subst τ1.
        destruct (after_moves vs σ τ Hlen Hltv) as (A1 & A2); [by apply agree_sym|]. apply (IC eq_refl p vs); [done|done|by apply agree_sym|done].
      + intros -> p vs σ Hpn Hvs Ha Hm. rewrite H4 in Hd. injection Hd as <-. cbn [code] in Hex. cbn in Hgo. subst m.
        apply (exec_code_tacs _ _ _ _ _ asss_eq) in Hex. apply exec_assigns in Hex. subst τ1. apply (ID eq_refl p vs); [done|done|]. apply agree_sym. apply after_asss; [|done]. by apply agree_sym.
      + intros -> p vs σ Hpn Hvs Ha. rewrite H2 in Hd. injection Hd as <-. cbn [code] in Hex.
        destruct (rest_plain) as ((ts & Hts) & _ & _). apply plain_spec in Hts. apply (exec_code_tacs _ _ _ _ _ Hts) in Hex.
        destruct (rest_agree ts _ _ (upd_all rs (map σ vs) σ) Hts Ha Hex) as (σ1 & Hex1 & A1).
        destruct (goes_unmap ctl (dv n) b (Block rest (dv n <$> succ b)) τ1 m) as (m0 & Hgo0 & ->); [done|apply rest_last|done|].
        assert (Hgo1 : goes ctl b σ1 m0) by by eapply goes_agree.
        destruct (Hnext n b σ1 m0 τ1 τ' Hb Hgo1 A1) as (σ' & A2 & Hr2); [exact IA|exact IB|]. exists σ'. split; [done|].
        eapply runs_block; [exact Hb| |exact Hgo1|exact Hr2]. apply (exec_phi_block p vs); [done|]. eauto.
  Qed.
  (** the whole graph *)
  Lemma undefs_eq : undefs = Tac <$> ((fun r => Op (undef r) [] [r]) <$> reverse rs).
  Proof using Type. unfold undefs, rs. rewrite fmap_reverse, fmap_reverse. f_equal. by rewrite <- !list_fmap_compose. Qed.
  Lemma step_executes σ : (forall r, r ∈ rs -> sem (undef r) [] = Some [σ r]) ->
    (forall σ', executes ctl sem truth g σ σ' -> exists τ', agree v σ' τ' /\ executes ctl sem truth g' σ τ') /\
    (forall τ', executes ctl sem truth g' σ τ' -> exists σ', agree v σ' τ' /\ executes ctl sem truth g σ σ').
  Proof using All.
    intros Hund. pose proof to_not_first as Htnf. pose proof dv_other as Hdv. pose proof dv_n as Hdn. destruct (valid_ends _ Hv) as (He & Hx). pose proof (unused_ends _ _ _ Hu) as Hxs.
    pose proof node_lt as Hlt. pose proof step_result as (_ & _ & Hst & H1 & H2 & H3 & H4 & H5 & H6). unfold executes. rewrite Hst, Hstart. pose proof (no_phi_head _ Hfp) as Hh.
    pose proof step_to as Hto. pose proof step_from as Hfrom. pose proof undefs_eq as Hue.
    assert (Hund' : forall r, r ∈ reverse rs -> sem (undef r) [] = Some [σ r]) by (intros r Hr; apply Hund; by rewrite <- elem_of_reverse).
    split.
    - intros σ' Hr. destruct (runs_inv _ _ _ _ _ _ _ _ Hr) as [(Hxf & _)|(c & σ1 & m & Hc & Hex & Hgo & Hr1)]; [congruence|]. assert (c = f) by congruence. subst c.
      destruct (Htnf _ _ _ _ Hc Hgo) as (Hmf & Hkm).
      destruct (exec_undefs_exists sem truth undef (reverse rs) σ (fun r Hr => ex_intro _ _ (Hund' r Hr)) σ) as (τ0 & Hex0).
      assert (A0 : agree v σ τ0) by (eapply exec_undefs; [exact Hund'| | |exact Hex0]; done).
      destruct (exec_code_agree _ f entry σ σ1 τ0 Hc A0 Hex) as (τ1 & Hex1 & A1).
      destruct (Hto _ _ _ _ Hr1 Hmf ltac:(by intros ->) τ1 A1) as (τ' & A2 & Hr2). exists τ'. split; [done|].
      eapply runs_block; [exact H3| | |exact Hr2].
      + cbn [code]. apply (exec_code_app _ _ _ entry); [done|]. exists τ0. split; [|done]. apply (exec_code_tacs _ _ _ _ _ Hue). exact Hex0.
      + eapply (goes_map ctl _ f); [done|apply first_last|]. by eapply goes_agree.
    - intros τ' Hr. destruct (runs_inv _ _ _ _ _ _ _ _ Hr) as [(Hxf & _)|(d & τ1 & m & Hd & Hex & Hgo & Hr1)]; [congruence|]. rewrite H3 in Hd. injection Hd as <-. cbn [code] in Hex.
      apply (exec_code_app _ _ _ entry) in Hex as (τ0 & Hex0 & Hex); [|done]. apply (exec_code_tacs _ _ _ _ _ Hue) in Hex0.
      assert (A0 : agree v σ τ0) by (eapply exec_undefs; [exact Hund'| | |exact Hex0]; done).
      destruct (exec_code_agree _ f entry τ0 τ1 σ Hf) as (σ1 & Hex1 & A1); [by apply agree_sym|done|].
      destruct (goes_unmap ctl (dv first) f (Block (undefs ++ code f) (dv first <$> succ f)) τ1 m) as (m0 & Hgo0 & ->); [done|apply first_last|done|].
      assert (Hgo1 : goes ctl f σ1 m0) by by eapply goes_agree. destruct (Htnf _ _ _ _ Hf Hgo1) as (Hmf & Hkm).
      destruct (Hfrom _ _ _ _ Hr1) as (FA & FB & _).
      assert (Hres : exists σ', agree v τ' σ' /\ runs ctl sem truth g first m0 σ1 σ').
      { destruct (decide (m0 = n)) as [->|Hmn]; [by apply (FB _ (Hdn _ Hkm))|]. rewrite Hdv in FA by done. apply FA; [|done|done|done].
        destruct (valid_edges _ Hv _ _ Hkm) as [->|HS]; [done|by apply Hlt]. }
      destruct Hres as (σ' & A2 & Hr2). exists σ'. split; [by apply agree_sym|]. by eapply runs_block.
  Qed.
End Step.
