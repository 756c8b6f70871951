(** The worklist solver: the initial state, and soundness of the result. *)
From stdpp Require Import base list list_numbers fin_sets gmap.
From Coq Require Import Lia.
From Verif.Andersen Require Import Model Spec Proofs Proofs2 Proofs3 Proofs4 Proofs5 WModel WProofs WProofs2 WProofs3 WProofs4 WProofs5 WProofs6 WProofs7 WProofs8 WProofs9 WProofs10.
From Verif.Tarjan Require Model Spec Properties.

(** ** the tables hold exactly the constraints, on roots *)
Definition e_of (s : pos) (r q : nat) (k : cstr) : Prop := match k with CSuper a b => root s a <> root s b /\ r = root s b /\ q = root s a | _ => False end.
Definition s_of (s : pos) (r q : nat) (k : cstr) : Prop := match k with CStore p v => r = root s p /\ q = root s v | _ => False end.
Definition l_of (s : pos) (r q : nat) (k : cstr) : Prop := match k with CLoad v p => r = root s p /\ q = root s v | _ => False end.
Definition c_of (s : pos) (r q : nat) (k : cstr) : Prop := match k with CCall p n => r = root s p /\ q = n | _ => False end.
Lemma ins_iff (f : nat -> gset nat) i x r q : q ∈ upd f i ({[x]} ∪ f i) r <-> q ∈ f r \/ (r = i /\ q = x).
Proof. unfold upd. destruct (decide (r = i)) as [->|]; [rewrite elem_of_union, elem_of_singleton|]; tauto. Qed.
Lemma ex_cons {A} (Q : A -> Prop) k cs : (exists x, x ∈ k :: cs /\ Q x) <-> Q k \/ exists x, x ∈ cs /\ Q x.
Proof.
  split.
  - intros (x & Hx & HQ). apply elem_of_cons in Hx as [->|Hx]; eauto.
  - intros [HQ|(x & Hx & HQ)]; [exists k; split; [left|auto]|exists x; split; [right; auto|auto]].
Qed.
Lemma init_tables_go s r q : forall cs t, let t' := fold_left (add_cstr s) cs t in
  (q ∈ edges t' r <-> q ∈ edges t r \/ exists k, k ∈ cs /\ e_of s r q k) /\ (q ∈ stc t' r <-> q ∈ stc t r \/ exists k, k ∈ cs /\ s_of s r q k) /\
  (q ∈ ldc t' r <-> q ∈ ldc t r \/ exists k, k ∈ cs /\ l_of s r q k) /\ (q ∈ clc t' r <-> q ∈ clc t r \/ exists k, k ∈ cs /\ c_of s r q k).
Proof.
  induction cs as [|k cs IH]; intros t; cbn [fold_left]; cbn zeta.
  { repeat split; auto; intros [|(x & K & _)]; auto; inversion K. }
  destruct (IH (add_cstr s t k)) as (A & B & C & D). rewrite A, B, C, D, !ex_cons. clear.
  destruct k as [a b|p v|v p|p k]; cbn [add_cstr e_of s_of l_of c_of]; try (destruct (decide (root s a = root s b)) as [e|ne]); cbn [edges stc ldc clc]; rewrite ?ins_iff;
    generalize (exists x, x ∈ cs /\ e_of s r q x) (exists x, x ∈ cs /\ s_of s r q x) (exists x, x ∈ cs /\ l_of s r q x) (exists x, x ∈ cs /\ c_of s r q x); intros; tauto.
Qed.
Lemma init_tables_spec s cs r q :
  (q ∈ edges (init_tables s cs) r <-> exists k, k ∈ cs /\ e_of s r q k) /\ (q ∈ stc (init_tables s cs) r <-> exists k, k ∈ cs /\ s_of s r q k) /\
  (q ∈ ldc (init_tables s cs) r <-> exists k, k ∈ cs /\ l_of s r q k) /\ (q ∈ clc (init_tables s cs) r <-> exists k, k ∈ cs /\ c_of s r q k).
Proof.
  destruct (init_tables_go s r q cs (mktb (fun _ => ∅) (fun _ => ∅) (fun _ => ∅) (fun _ => ∅))) as (A & B & C & D).
  unfold init_tables. rewrite A, B, C, D. cbn. rewrite !elem_of_empty. clear. intuition.
Qed.

(** ** escaped_functions *)
Section Esc.
  Context (s0 : pos) (G : prog) (WG : wf_prog (npo s0) (kindof s0) G).
  Notation W := (W s0). Notation op_ok := (op_ok s0).
  Lemma ok_1 m s : op_ok m -> W s -> W (m s).1 /\ le s (m s).1.
  Proof using. intros O HW. destruct (m s) as [s' b] eqn:E. destruct (O s s' b HW E) as (A & B & _). auto. Qed.
  Lemma seqop_1 m1 m2 s : ((m1 ;+ m2) s).1 = (m2 (m1 s).1).1.
  Proof using. unfold seqop. destruct (m1 s) as [s1 b1]. cbn. destruct (m2 s1). auto. Qed.
  Lemma post_forop {A} (l : list A) (f : A -> op) (Q : A -> pos -> Prop) : (forall x, x ∈ l -> op_ok (f x)) ->
    (forall x s s', le s s' -> Q x s -> Q x s') -> (forall x s, x ∈ l -> W s -> Q x (f x s).1) -> forall s x, W s -> x ∈ l -> Q x (forop l f s).1.
  Proof using.
    induction l as [|a l IH]; intros O M K s x HW Hx; [inversion Hx|]. cbn [forop]. rewrite seqop_1.
    assert (O' : forall x, x ∈ l -> op_ok (f x)) by (intros; apply O; right; auto).
    assert (Oa : op_ok (f a)) by (apply O; left). destruct (ok_1 _ s Oa HW) as [W1 L1].
    apply elem_of_cons in Hx as [->|Hx].
    - eapply M; [apply (ok_1 (forop l f)); [apply ok_for; auto|auto]|]. apply K; [left|auto].
    - apply IH; auto. intros; apply K; [right; auto|auto].
  Qed.
  Lemma forop_esc {A} (l : list A) (f : A -> op) : (forall x s, fesc (f x s).1 = fesc s) -> forall s, fesc (forop l f s).1 = fesc s.
  Proof using. intros H. induction l as [|a l IH]; intros s; cbn [forop]; [auto|]. rewrite seqop_1, IH. auto. Qed.
  Lemma mark_ext_esc i s : fesc (mark_ext i s).1 = fesc s.
  Proof using. unfold mark_ext. destruct (decide _); auto. Qed.
  Lemma mark_pe_esc i s : fesc (mark_pe i s).1 = fesc s.
  Proof using. unfold mark_pe. destruct (decide _); auto. Qed.
  Lemma escaped_function_esc f s : fesc (escaped_function G f s).1 = fesc s.
  Proof using.
    unfold escaped_function. rewrite seqop_1. unfold forsome.
    rewrite !forop_esc; auto; intros [i|] s1; auto; unfold ifop; destruct (negb _); auto using mark_ext_esc, mark_pe_esc.
  Qed.
  Lemma escaped_functions_esc s : fesc (escaped_functions G s).1 = fesc s.
  Proof using. apply forop_esc. intros f s1. unfold ifop. destruct (has_escaped _ _); auto using escaped_function_esc. Qed.
  Lemma escaped_function_post f s : W s -> let s' := (escaped_function G f s).1 in
    (forall i, Some i ∈ fargs G f -> root s' i ∈ fext s') /\ (forall i, Some i ∈ fresults G f -> root s' i ∈ fpe s').
  Proof using WG.
    intros HW s'. unfold s', escaped_function. rewrite !seqop_1.
    set (m2 := forsome (fresults G f) (fun i => ifop (fun s => negb (has_pe s i)) (mark_pe i))). set (m1 := forsome (fargs G f) (fun i => ifop (fun s => negb (is_ext s i)) (mark_ext i))).
    assert (O1 : op_ok m1) by (apply ok_forsome; intros i Hi; apply ok_if, ok_mark_ext; eapply wg_fargs; eauto).
    assert (O2 : op_ok m2) by (apply ok_forsome; intros i Hi; apply ok_if, ok_mark_pe; eapply wg_fresults; eauto).
    destruct (ok_1 m1 s O1 HW) as [W1 L1]. destruct (ok_1 m2 _ O2 W1) as [W2 L2]. split; intros i Hi.
    - rewrite (static_root _ _ i (le_static _ _ L2)). apply (le_ext _ _ L2).
      refine (post_forop (fargs G f) _ (fun o s => match o with Some i => root s i ∈ fext s | None => True end) _ _ _ s (Some i) HW Hi).
      + intros [j|] Hj; [apply ok_if, ok_mark_ext; eapply wg_fargs; eauto|apply ok_nop].
      + intros [j|] s1 s2 L K; auto. rewrite (static_root _ _ j (le_static _ _ L)). apply (le_ext _ _ L). auto.
      + intros [j|] s1 Hj HW1; auto. unfold ifop, is_ext. destruct (negb _) eqn:Eb; cbn [fst].
        * unfold mark_ext. destruct (decide _); cbn [fst]; auto. change (root s1 j ∈ {[root s1 j]} ∪ fext s1). apply elem_of_union. left. apply elem_of_singleton. auto.
        * apply negb_false_iff, bool_decide_eq_true in Eb. auto.
    - refine (post_forop (fresults G f) _ (fun o s => match o with Some i => root s i ∈ fpe s | None => True end) _ _ _ _ (Some i) W1 Hi).
      + intros [j|] Hj; [apply ok_if, ok_mark_pe; eapply wg_fresults; eauto|apply ok_nop].
      + intros [j|] s1 s2 L K; auto. rewrite (static_root _ _ j (le_static _ _ L)). apply (le_pe _ _ L). auto.
      + intros [j|] s1 Hj HW1; auto. unfold ifop, has_pe. destruct (negb _) eqn:Eb; cbn [fst].
        * unfold mark_pe. destruct (decide _); cbn [fst]; auto. change (root s1 j ∈ {[root s1 j]} ∪ fpe s1). apply elem_of_union. left. apply elem_of_singleton. auto.
        * apply negb_false_iff, bool_decide_eq_true in Eb. auto.
  Qed.
  Lemma escaped_functions_post : wf s0 -> let s' := (escaped_functions G s0).1 in
    wf s' /\ le s0 s' /\ fesc s' = fesc s0 /\
    forall f, f ∈ functions G -> f ∈ fesc s' -> (forall i, Some i ∈ fargs G f -> root s' i ∈ fext s') /\ (forall i, Some i ∈ fresults G f -> root s' i ∈ fpe s').
  Proof using WG.
    intros Wf s'. pose proof (W_self s0 Wf) as HW. destruct (ok_1 _ s0 (ok_escaped_functions s0 G WG) HW) as [[A _] B].
    split; [exact A|]. split; [exact B|]. split; [apply escaped_functions_esc|]. intros f Hf. unfold s'. rewrite escaped_functions_esc. intros He.
    (* strengthen: le from s0 *)
    assert (K : forall l s, W s -> fesc s = fesc s0 -> (forall x, x ∈ l -> x ∈ functions G) -> f ∈ l ->
      let s' := (forop l (fun f => ifop (fun s => has_escaped s f) (escaped_function G f)) s).1 in
      (forall i, Some i ∈ fargs G f -> root s' i ∈ fext s') /\ (forall i, Some i ∈ fresults G f -> root s' i ∈ fpe s')).
    { clear Hf s' A B. induction l as [|a l IH]; intros s HWs Es Hl Hf; [inversion Hf|]. cbn [forop]. rewrite seqop_1.
      set (m := ifop _ _). assert (Om : op_ok m) by (apply ok_if, ok_escaped_function; auto). destruct (ok_1 m s Om HWs) as [W1 L1].
      assert (E1 : fesc (m s).1 = fesc s0) by (unfold m, ifop; destruct (has_escaped s a); auto; rewrite escaped_function_esc; auto).
      apply elem_of_cons in Hf as [<-|Hf].
      2: { apply IH; auto. intros; apply Hl; right; auto. }
      set (m2 := forop l _). assert (O2 : op_ok m2) by (apply ok_for; intros; apply ok_if, ok_escaped_function; auto).
      destruct (ok_1 m2 _ O2 W1) as [W2 L2].
      assert (Q : (forall i, Some i ∈ fargs G f -> root (m s).1 i ∈ fext (m s).1) /\ (forall i, Some i ∈ fresults G f -> root (m s).1 i ∈ fpe (m s).1)).
      { unfold m, ifop. replace (has_escaped s f) with true; [apply escaped_function_post; auto|]. symmetry. apply esc_iff. rewrite Es. auto. }
      destruct Q as [Q1 Q2]. split; intros i Hi; rewrite (static_root _ _ i (le_static _ _ L2)); [apply (le_ext _ _ L2)|apply (le_pe _ _ L2)]; auto. }
    apply (K (functions G) s0); auto.
  Qed.
End Esc.

Section WSound.
  Context (ord : forall A : Type, nat -> list A -> list A) (ord_perm : forall A k (l : list A), ord A k l ≡ₚ l).
  Context (pick : nat -> gset nat -> nat) (pick_in : forall k (S : gset nat), S <> ∅ -> pick k S ∈ S).
  Context (MAX : nat) (G : prog) (c : cfg) (n : nat) (kd : nat -> kind) (WG : wf_prog n kd G).
  Notation shape := (shape c n kd). Notation sstep := (sstep G c). Notation step := (step G c n kd). Notation ok := (ok G c n kd).
  Notation vld := (vld n kd). Notation rt := WModel.rt. Notation Xc := (Xc G). Notation Ic := (Ic G).
  Notation wle := (wle n). Notation Inv := (Inv G c n kd). Notation inv_at := (inv_at G c kd). Notation ob := (ob G kd). Notation exc_in := (exc_in n).
  Notation merged := (merged c). Notation FI := (FI G). Notation good := (good G c n kd).
  Notation none := (fun _ : nat => False).

  Lemma init_shape s cs ref : wf s -> npo s = n -> kindof s = kd -> (forall k, k ∈ cs -> cstr_in n k) -> (forall i x, ref i = Some x -> x < n) -> shape (init_ws s cs ref).
  Proof using.
    intros Wf N K HC HR. unfold init_ws.
    assert (RL : forall x, x < n -> root s x < n) by (intros; rewrite <- N; apply root_lt; auto; congruence).
    assert (RR : forall x, x < n -> root s (root s x) = root s x) by (intros; apply root_root; auto; congruence).
    split; cbn [P tb df cy wl newE refroot newp]; auto.
    - intros r q Hq. apply init_tables_spec in Hq as (k & Hk & Q). specialize (HC k Hk). destruct k; cbn in Q, HC; try tauto. destruct Q as (_ & -> & ->).
      split; [apply RL; tauto|]. split; [apply RR; tauto|apply RL; tauto].
    - intros r q Hq. apply init_tables_spec in Hq as (k & Hk & Q). specialize (HC k Hk). destruct k; cbn in Q, HC; try tauto. destruct Q as (-> & ->).
      split; [apply RL; tauto|]. split; [apply RR; tauto|apply RL; tauto].
    - intros r q Hq. apply init_tables_spec in Hq as (k & Hk & Q). specialize (HC k Hk). destruct k; cbn in Q, HC; try tauto. destruct Q as (-> & ->).
      split; [apply RL; tauto|]. split; [apply RR; tauto|apply RL; tauto].
    - intros r q Hq. apply init_tables_spec in Hq as (k & Hk & Q). specialize (HC k Hk). destruct k; cbn in Q, HC; try tauto. destruct Q as (-> & ->).
      split; [apply RL; tauto|apply RR; tauto].
    - intros a b Hab. apply elem_of_empty in Hab. tauto.
    - intros a Hab. apply elem_of_empty in Hab. tauto.
    - intros _ r y Hab. apply elem_of_empty in Hab. tauto.
  Qed.
  (** before the first visit *)
  Record fresh (w : ws) : Prop := { fr_tracked : tracked (df w) = ∅; fr_ext : extseen (df w) = ∅; fr_pe : peseen (df w) = ∅; fr_newE : newE w = ∅ }.
  Lemma fresh_init s cs ref : fresh (init_ws s cs ref).
  Proof using. split; auto. Qed.
  Lemma quiet_fresh w w' : quiet w w' -> fresh w -> fresh w'.
  Proof using. intros [Q1 Q2 Q3 Q4 Q5 Q6] []. split; congruence. Qed.
  Lemma mg_fresh w w' r nr : merged w w' r nr -> fresh w -> fresh w'.
  Proof using.
    intros M []. split; rewrite ?(mg_df _ _ _ _ _ M), ?(mg_newE _ _ _ _ _ M); auto; (destruct (dp c); [|auto]); cbn.
    - rewrite fr_tracked0. apply difference_empty_L || (clear; set_solver).
    - rewrite fr_ext0. destruct (decide _); auto. clear; set_solver.
    - rewrite fr_pe0. destruct (decide _); auto. clear; set_solver.
  Qed.
  Definition started (w w' : ws) : Prop := shape w' /\ fresh w' /\ wle w w'.
  Lemma started_trans w1 w2 w3 : started w1 w2 -> started w2 w3 -> started w1 w3.
  Proof using. intros (A & B & C) (D & E & F). split; [auto|]. split; [auto|]. eapply wle_trans; eauto. Qed.
  Lemma wunify_started a b w : shape w -> fresh w -> a < n -> b < n -> let '(w', r) := wunify c a b w in started w w' /\ r < n.
  Proof using.
    intros H F Ha Hb. pose proof (wunify_raw c n kd a b w H Ha Hb) as K. destruct (wunify c a b w) as [w' r].
    destruct K as [(_ & -> & ->)|(ne & nr & C & M)].
    - split; [|apply (rt_lt c n kd); auto]. split; [auto|]. split; [auto|apply wle_refl].
    - split; [|apply (mg_r c n kd w w' r nr H M)]. split; [eapply mg_shape; eauto|]. split; [eapply mg_fresh; eauto|eapply mg_wle; eauto].
  Qed.
  Lemma quiet_topo k x w : quiet w (topo_append k x w).
  Proof using. apply quiet_setC. cbn. eauto. Qed.
  Lemma quiet_started w w' : shape w -> fresh w -> quiet w w' -> started w w'.
  Proof using. intros H F Q. split; [eapply quiet_shape; eauto|]. split; [eapply quiet_fresh; eauto|apply quiet_wle; auto]. Qed.
  Lemma ocd_place_all_started idx : forall l k cur w, shape w -> fresh w -> cur < n -> (forall y, y ∈ l -> y < n) -> started w (ocd_place_all c idx k cur l w).
  Proof using.
    induction l as [|next l IH]; intros k cur w H F Hc Hl; cbn [ocd_place_all].
    - apply quiet_started; auto using quiet_topo.
    - assert (Hn : next < n) by (apply Hl; left). assert (Hl' : forall y, y ∈ l -> y < n) by (intros; apply Hl; right; auto).
      destruct (decide (idx cur = idx next)).
      + pose proof (wunify_started cur next w H F Hc Hn) as K. destruct (wunify c cur next w) as [w1 u]. destruct K as [K Lu].
        eapply started_trans; [exact K|]. apply IH; auto; apply K.
      + pose proof (quiet_started w _ H F (quiet_topo k cur w)) as K. eapply started_trans; [exact K|]. apply IH; auto; apply K.
  Qed.
  Lemma ocd_init_started w w' : n < MAX -> shape w -> fresh w -> ocd_init ord MAX c w = Some w' -> started w w'.
  Proof using ord_perm.
    intros HM H F. unfold ocd_init. destruct (scc ord MAX w) as [t|] eqn:Es; cbn [mbind option_bind]; [|discriminate]. intros [= <-].
    assert (Ht := fun y => scc_rto ord ord_perm MAX c n kd w t y HM H Es).
    destruct (rev _) as [|cur l]; [apply quiet_started; auto; apply quiet_refl|].
    pose proof (quiet_started w _ H F (quiet_tickw w)) as K. eapply started_trans; [exact K|]. apply ocd_place_all_started; [apply K|apply K| |].
    - apply Ht. left.
    - intros y Hy. apply Ht. right. auto.
  Qed.
  Lemma start_good w : shape w -> fresh w -> good none (start_ws G w) /\ wle w (start_ws G w) /\ newE (start_ws G w) = ∅.
  Proof using WG.
    intros H F. unfold start_ws. set (roots := list_to_set _ : gset nat). set (w1 := setW roots w).
    assert (HG : wf_prog (npo (P w1)) (kindof (P w1)) G) by (cbn; rewrite (sh_npo _ _ _ w H), (sh_kind _ _ _ w H); auto).
    destruct (escaped_functions_post (P w1) G HG (sh_wf _ _ _ w H)) as (A & B & C & D). cbn zeta in A, B, C, D.
    set (s' := (escaped_functions G (P w1)).1) in *.
    assert (HR : forall x, x ∈ roots <-> x < n /\ rt w x = x).
    { intros x. unfold roots. rewrite elem_of_list_to_set, elem_of_list_filter, elem_of_seq, (sh_npo _ _ _ w H). unfold is_root. rewrite bool_decide_eq_true. unfold WModel.rt. split; intros; split; try tauto; lia. }
    assert (L : wle w (setP s' w1)) by (eapply wle_trans; [apply (wle_wl n w roots)|]; apply wle_stable; auto).
    split; [|split; [exact L|apply F]].
    assert (S1 : shape (setP s' w1)).
    { apply (shape_setP c n kd); auto. apply shape_setW; auto. intros x Hx. apply HR in Hx. tauto. }
    split; auto.
    - intros r Hr Rr. pose proof (rt_le w1 (setP s' w1) r B) as R. rewrite Rr in R. change (rt w1 r) with (rt w r) in R.
      assert (NC : ~ clean none (setP s' w1) r) by (intros [K _]; apply K; cbn; apply HR; auto).
      destruct F as [F1 F2 F3 F4].
      assert (NP : forall y, ~ SP c none (setP s' w1) r y) by (intros y [_ K]; cbn in K; rewrite F1 in K; destruct (dp c); [destruct K as [K _]; apply elem_of_empty in K|]; auto).
      assert (NX : ~ SX c none (setP s' w1) r) by (intros K; unfold SX in K; cbn in K; rewrite F2 in K; destruct (dp c); [apply elem_of_empty in K|]; tauto).
      assert (NE : ~ SE c none (setP s' w1) r) by (intros K; unfold SE in K; cbn in K; rewrite F3 in K; destruct (dp c); [apply elem_of_empty in K|]; tauto).
      split; try (intros; exfalso; auto; fail). split.
      + intros q Hq. right. split; [intros y Hy; destruct (NP y Hy)|tauto].
      + intros q Hq. split; [intros y Hy; destruct (NP y Hy)|tauto].
      + intros q Hq. split; [intros y Hy; destruct (NP y Hy)|tauto].
      + intros q Hq. split; [|split]; [intros y Hy; destruct (NP y Hy)|intros y Hy; destruct (NP y Hy)|tauto].
      + intros y _ Hy. destruct (NP y Hy).
      + intros y _ Hy. destruct (NP y Hy).
  Qed.

  (** ** what a final state says *)
  Section Final.
    Context (w : ws) (Gd : good none w) (Wl : wl w = ∅) (Ne : newE w = ∅).
    Let H : shape w := g_shape _ _ _ _ _ _ Gd.
    Notation T := (observe (P w)).
    Lemma fin_clean r : clean none w r.
    Proof using Wl. split; [rewrite Wl; apply not_elem_of_empty|tauto]. Qed.
    Lemma fin_ob r : r < n -> rt w r = r -> ob None w r (fun y => y ∈ pts (P w) r) (r ∈ fext (P w)).
    Proof using Gd Wl WG.
      intros Hr R. destruct (g_Inv _ _ _ _ _ _ Gd r Hr R) as [O XS ES A B C D].
      apply (ob_mono G c n kd WG None w w r (SP c none w r) _ (SX c none w r)); cbn [WProofs3.exc_in]; auto using wle_refl.
      - intros y Hy. split; [apply B; auto using fin_clean|eapply pts_vld; eauto].
      - apply C, fin_clean.
    Qed.
    Lemma Pt_def x y : Pt w x y <-> y ∈ pts (P w) (rt w x).
    Proof using. reflexivity. Qed.
    Lemma fin_esc x y : x < n -> Pp w x -> Pt w x y -> Es w y.
    Proof using Gd Wl.
      intros Hx Hp Hy. pose proof (rt_lt c n kd w x H Hx) as Lr. pose proof (rt_rt c n kd w x H Hx) as Rr.
      destruct (g_Inv _ _ _ _ _ _ Gd (rt w x) Lr Rr) as [O XS ES A B C D]. apply A; [apply D|apply B]; auto using fin_clean.
    Qed.
    Lemma esc_E y : Es w y -> E w y.
    Proof using H. intros K. apply (wf_esc_ext _ (sh_wf _ _ _ w H)). auto. Qed.
    Lemma esc_Pp y : Es w y -> Pp w y.
    Proof using H. intros K. apply (wf_esc_pe _ (sh_wf _ _ _ w H)). auto. Qed.
    Lemma oS x y : Sol T x y <-> So w x y.
    Proof using. apply pointing_iff. Qed.
    Lemma oE x : Ext T x <-> E w x.
    Proof using. apply ext_iff. Qed.
    Lemma oEs x : Esc T x <-> Es w x.
    Proof using. apply esc_iff. Qed.
    Lemma oP x : Pe T x <-> Pp w x.
    Proof using. apply pe_iff. Qed.
    Lemma fin_So_esc x y : x < n -> Pp w x -> So w x y -> Es w y.
    Proof using Gd Wl. intros Hx Hp [[_ K]|K]; auto. eapply fin_esc; eauto. Qed.
    Lemma fin_Lk0 a b : a < n -> b < n -> Lk0 w a b -> includes T a b.
    Proof using Gd Wl WG.
      intros Ha Hb K.
      assert (Q : (forall y, So w b y -> So w a y) /\ (E w b -> E w a)).
      { destruct K as [K|[(q & K1 & K2)|[K1 K2]]].
        - split; [intros y|]; unfold So, E, Pt, pset; fold (rt w a) (rt w b); rewrite K; auto.
        - pose proof (rt_lt c n kd w b H Hb) as Lr. pose proof (rt_rt c n kd w b H Hb) as Rr.
          assert (X : (forall y, y ∈ pts (P w) (rt w b) -> So w q y) /\ (E w b -> E w q)).
          { destruct (ob_edge _ _ _ _ _ _ _ (fin_ob (rt w b) Lr Rr) q K1) as [[]|X]; auto. }
          destruct X as [X Y]. assert (EQ : E w q -> E w a) by (unfold E; rewrite K2; auto). split; [|auto].
          assert (SQ : forall y, So w q y -> So w a y) by (intros y; unfold So, E, Pt, pset; fold (rt w a) (rt w q); rewrite K2; auto).
          intros y [[K3 K4]|K3]; [left; auto|auto].
        - split; [|auto]. intros y Hy. left. split; auto. eapply fin_So_esc; eauto. }
      destruct Q as [Q1 Q2]. split; [intros y; rewrite !oS; auto|rewrite !oE; auto].
    Qed.
    Lemma fin_Lk a b : a < n -> b < n -> Lk w a b -> includes T a b.
    Proof using Gd Wl WG Ne. intros Ha Hb [K|(x & y & K & _)]; [apply fin_Lk0; auto|]. rewrite Ne in K. apply elem_of_empty in K. tauto. Qed.
    Lemma fin_Xc k : Xc w k -> external_call G T k.
    Proof using. intros [A B]. split; intros i Hi; [apply oP|apply oE]; auto. Qed.
    Lemma zip_lookup (l1 l2 : list (option nat)) k i j : l1 !! k = Some (Some i) -> l2 !! k = Some (Some j) -> (Some i, Some j) ∈ zip l1 l2.
    Proof using. intros A B. apply elem_of_list_lookup. exists k. apply lookup_zip_with_Some. eauto. Qed.
    Lemma fin_Ic k f : Ic w k f -> internal_call G T k f.
    Proof using Gd Wl WG Ne.
      intros [A B]. split; intros k' i j H1 H2.
      - pose proof (elem_of_list_lookup_2 _ _ _ H1). pose proof (elem_of_list_lookup_2 _ _ _ H2).
        apply fin_Lk; [eapply wg_fargs; eauto|eapply wg_cargs; eauto|]. apply A. eapply zip_lookup; eauto.
      - pose proof (elem_of_list_lookup_2 _ _ _ H1). pose proof (elem_of_list_lookup_2 _ _ _ H2).
        apply fin_Lk; [eapply wg_couts; eauto|eapply wg_fresults; eauto|]. apply B. eapply zip_lookup; eauto.
    Qed.
    (** calling an escaped function of this module from a call node that may call anything *)
    Lemma fin_Ic_esc k f : Xc w k -> f ∈ functions G -> Es w f -> internal_call G T k f.
    Proof using Gd Wl WG Ne.
      intros [A B] Hf He. destruct (g_FI _ _ _ _ _ _ Gd f Hf He) as [C D]. apply fin_Ic. split; intros i j Hi; apply zip_in_l in Hi as [H1 H2]; left; right; right; split; auto.
    Qed.
    Lemma fin_esc_lt y : Es w y -> y < n.
    Proof using H. intros K. rewrite <- (sh_npo _ _ _ w H). apply (wf_flags _ (sh_wf _ _ _ w H)). auto. Qed.
    Lemma fin_So_lt x y : So w x y -> y < n.
    Proof using H. intros [[_ K]|K]; [apply fin_esc_lt; auto|eapply pts_vld; eauto]. Qed.

    Context (s : pos) (cs : list cstr) (ref : nat -> option nat).
    Context (Hn : npo s = n) (Hk : kindof s = kd) (Wf : wf s) (HC : forall k, k ∈ cs -> cstr_in n k) (L : wle (init_ws s cs ref) w).
    Let R0 x : rt (init_ws s cs ref) x = root s x.
    Proof using. reflexivity. Qed.
    Let Rlt x : x < n -> root s x < n.
    Proof using Hn Wf. intros. rewrite <- Hn. apply root_lt; auto. congruence. Qed.
    Let Rrt x : x < n -> rt w (root s x) = rt w x.
    Proof using Hn Wf L. intros Hx. apply (le_same _ _ _ L); auto. apply root_root; auto. congruence. Qed.
    Lemma fin_constraint k : k ∈ cs -> meaning G kd T k.
    Proof using Gd Wl WG Ne Hn Hk Wf HC L R0 Rlt Rrt.
      intros Hin. pose proof (HC k Hin) as Hc.
      destruct k as [a b|p v|v p|p k]; cbn [cstr_in meaning] in *.
      - destruct Hc as [Ha Hb]. apply fin_Lk0; auto. apply (le_Lk0 _ _ _ L); auto.
        destruct (decide (root s a = root s b)) as [e|ne]; [left; auto|]. right. left. exists (root s a). split; [|apply root_root; auto; congruence].
        cbn [tb init_ws]. apply init_tables_spec. exists (CSuper a b). split; auto. cbn. auto.
      - destruct Hc as [Hp Hv].
        assert (K : root s v ∈ stc (tb w) (rt w p)).
        { apply (le_stc _ _ _ L); auto. cbn [tb init_ws]. apply init_tables_spec. exists (CStore p v). split; auto. cbn. auto. }
        destruct (ob_stc _ _ _ _ _ _ _ (fin_ob _ (rt_lt c n kd w p H Hp) (rt_rt c n kd w p H Hp)) _ K) as [A B].
        assert (PV : E w p -> Pp w v) by (intros X; unfold Pp; rewrite <- Rrt by auto; apply B; auto).
        split; [|rewrite oE, oP; auto]. intros x. rewrite oS. intros Hx. pose proof (fin_So_lt _ _ Hx) as Lx.
        apply fin_Lk; auto. destruct Hx as [[X1 X2]|X].
        + left. right. right. split; auto using esc_E.
        + destruct (A x X) as [Y|(x1 & y1 & Y & _)]; [|rewrite Ne in Y; apply elem_of_empty in Y; tauto]. left. apply (Lk0_same w x (root s v)); auto.
      - destruct Hc as [Hv Hp].
        assert (K : root s v ∈ ldc (tb w) (rt w p)).
        { apply (le_ldc _ _ _ L); auto. cbn [tb init_ws]. apply init_tables_spec. exists (CLoad v p). split; auto. cbn. auto. }
        destruct (ob_ldc _ _ _ _ _ _ _ (fin_ob _ (rt_lt c n kd w p H Hp) (rt_rt c n kd w p H Hp)) _ K) as [A B].
        assert (PV : E w p -> E w v) by (intros X; unfold E; rewrite <- Rrt by auto; apply B; auto).
        split; [|rewrite !oE; auto]. intros x. rewrite oS. intros Hx. pose proof (fin_So_lt _ _ Hx) as Lx.
        apply fin_Lk; auto. destruct Hx as [[X1 X2]|X].
        + left. right. right. split; auto using esc_Pp.
        + destruct (A x X) as [Y|(x1 & y1 & Y & _)]; [|rewrite Ne in Y; apply elem_of_empty in Y; tauto]. left. apply (Lk0_same w (root s v) x); auto.
      - rename Hc into Hp.
        assert (K : k ∈ clc (tb w) (rt w p)).
        { apply (le_clc _ _ _ L); auto. cbn [tb init_ws]. apply init_tables_spec. exists (CCall p k). split; auto. cbn. auto. }
        destruct (ob_clc _ _ _ _ _ _ _ (fin_ob _ (rt_lt c n kd w p H Hp) (rt_rt c n kd w p H Hp)) _ K) as (A & B & C).
        split; [|split].
        + intros f. rewrite oS. intros [[X1 X2]|X] Kf; apply fin_Xc; [apply C; auto|apply (A f); auto].
        + intros f. rewrite oS. intros [[X1 X2]|X] Kf; [|apply fin_Ic, B; auto].
          apply fin_Ic_esc; auto. apply (wg_functions _ _ _ WG); auto using fin_esc_lt.
        + rewrite oE. intros X. apply fin_Xc, C. auto.
    Qed.
    Lemma fin_solution : solution G s cs T.
    Proof using Gd Wl WG Ne Hn Hk Wf HC L R0 Rlt Rrt.
      split.
      - split; rewrite Hn.
        + intros x y Hx Hy. apply oS. apply (le_So _ _ _ L); auto. apply pointing_iff in Hy. exact Hy.
        + intros x Hx Hy. apply oE. apply (le_E _ _ _ L); auto. apply ext_iff in Hy. exact Hy.
        + intros x Hx Hy. apply oEs. apply (le_Es _ _ _ L); auto. apply esc_iff in Hy. exact Hy.
        + intros x Hx Hy. apply oP. apply (le_Pp _ _ _ L); auto. apply pe_iff in Hy. exact Hy.
      - rewrite Hn. intros x y Hx Hy Exy. assert (Q : rt w x = rt w y) by (apply (le_same _ _ _ L); auto).
        split; [|split].
        + intros z. rewrite !oS. unfold So, E, Pt, pset. fold (rt w x) (rt w y). rewrite Q. tauto.
        + rewrite !oE. unfold E. rewrite Q. tauto.
        + rewrite !oP. unfold Pp. rewrite Q. tauto.
      - rewrite Hk. apply fin_constraint.
      - rewrite Hn. split.
        + intros x y Hx. rewrite oP, oS, oEs. apply fin_So_esc; auto.
        + intros y. rewrite oEs, oP, oE. auto using esc_E, esc_Pp.
        + intros x y Hx. rewrite oE, oEs, oS. left. auto.
        + intros f i Hf. rewrite oEs, oE. intros He. apply (g_FI _ _ _ _ _ _ Gd f Hf He).
        + intros f i Hf. rewrite oEs, oP. intros He. apply (g_FI _ _ _ _ _ _ Gd f Hf He).
      - rewrite Hn. intros x y Hx Hs. rewrite oS, oE. assert (Q : Sas w x).
        { apply (le_Sas _ _ _ L); auto. apply bool_decide_eq_true in Hs. exact Hs. }
        intros [[_ X]|X]; [auto using esc_E|].
        destruct (ob_sas _ _ _ _ _ _ _ (fin_ob _ (rt_lt c n kd w x H Hx) (rt_rt c n kd w x H Hx)) y) as [|K]; auto.
        { unfold Sas. rewrite (rt_rt c n kd); auto. }
        apply esc_E. apply (fin_esc x); auto. unfold Pp in *. rewrite (rt_rt c n kd) in K; auto.
      - rewrite Hn. intros x y Hx Hs. rewrite oS, oP. assert (Q : Las w x).
        { apply (le_Las _ _ _ L); auto. apply bool_decide_eq_true in Hs. exact Hs. }
        intros [[_ X]|X]; [auto using esc_Pp|].
        destruct (ob_las _ _ _ _ _ _ _ (fin_ob _ (rt_lt c n kd w x H Hx) (rt_rt c n kd w x H Hx)) y) as [|K]; auto.
        { unfold Las. rewrite (rt_rt c n kd); auto. }
        apply esc_Pp. apply (fin_esc x); auto. unfold Pp in *. rewrite (rt_rt c n kd) in K; auto.
    Qed.
  End Final.

  Lemma solve_final topo fuel cs ref s s' : n < MAX -> wf s -> npo s = n -> kindof s = kd -> (forall k, k ∈ cs -> cstr_in n k) -> (forall i x, ref i = Some x -> x < n) ->
    solve_worklist ord pick MAX G c topo fuel cs ref s = Some s' ->
    exists w, P w = s' /\ good none w /\ wl w = ∅ /\ newE w = ∅ /\ wle (init_ws s cs ref) w.
  Proof using ord_perm pick_in WG.
    intros HM Wf Hn Hk HC HR. unfold solve_worklist. pose proof (init_shape s cs ref Wf Hn Hk HC HR) as H0. pose proof (fresh_init s cs ref) as F0.
    set (w0 := init_ws s cs ref) in *.
    assert (K : forall w1, (if ocd c then ocd_init ord MAX c w0 else Some w0) = Some w1 -> started w0 w1).
    { intros w1. destruct (ocd c); [apply ocd_init_started; auto|]. intros [= <-]. split; [auto|]. split; [auto|apply wle_refl]. }
    destruct (if ocd c then _ else _) as [w1|]; cbn [mbind option_bind]; [|discriminate].
    destruct (K w1 eq_refl) as (H1 & F1 & L1). destruct (start_good w1 H1 F1) as (G2 & L2 & N2).
    assert (Q : forall w2, (if topo then run_topological ord MAX G c fuel (start_ws G w1) else run_worklist ord pick G c fuel (start_ws G w1)) = Some w2 ->
      gstate G c n kd (start_ws G w1) w2 /\ wl w2 = ∅).
    { intros w2. destruct topo; [apply run_topological_good; auto|apply run_worklist_good; auto]. }
    destruct (if topo then _ else _) as [w2|]; cbn [mbind option_bind]; [|discriminate]. intros [= <-].
    destruct (Q w2 eq_refl) as [(G3 & L3 & N3) W3]. exists w2. split; [auto|]. split; [auto|]. split; [auto|]. split; [auto|].
    eapply wle_trans; [exact L1|]. eapply wle_trans; eauto.
  Qed.
  Lemma solve_sound topo fuel cs ref s s' : n < MAX -> wf s -> npo s = n -> kindof s = kd -> (forall k, k ∈ cs -> cstr_in n k) -> (forall i x, ref i = Some x -> x < n) ->
    solve_worklist ord pick MAX G c topo fuel cs ref s = Some s' -> solution G s cs (observe s').
  Proof using ord_perm pick_in WG.
    intros HM Wf Hn Hk HC HR E. destruct (solve_final topo fuel cs ref s s' HM Wf Hn Hk HC HR E) as (w & <- & Gd & Wl & Ne & L).
    eapply fin_solution; eauto.
  Qed.
End WSound.
