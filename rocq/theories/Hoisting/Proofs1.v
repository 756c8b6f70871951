(** Hoisting one node: what the regions compute. *)
From stdpp Require Import base list gmap.
From Coq Require Import ZArith Lia.
From Verif.LocalRegion Require Import Model Spec Facts.
From Verif.Unswitch Require Import Model Spec Proofs1 Proofs2 Proofs3.
From Verif.Sinking Require Import Spec.
From Verif.Hoisting Require Import Model Spec.
Open Scope nat_scope.

Notation no_mem := (fun _ _ => false) (only parsing).
Lemma position_ok r y p : position r y = Some p -> rargs r !! p = Some y.
Proof. unfold position. intros H. apply bind_Some in H as ([p' y'] & H & [= <-]). by apply list_find_Some in H as (? & -> & _). Qed.
Lemma up_gamma mem subs ins outs s y x : up mem (Node (KGamma subs) ins outs) s y = Some x -> exists p, p <> 0 /\ rargs s !! p = Some y /\ ins !! p = Some x.
Proof. unfold up. intros H. apply bind_Some in H as (p & Hp & H). cbn [nkind nins] in H. case_decide; [done|]. exists p. split; [done|]. split; [by apply position_ok | done]. Qed.
Lemma up_theta b ins outs s y x : up no_mem (Node (KTheta b) ins outs) s y = Some x -> exists p, rargs s !! p = Some y /\ rres s !! S p = Some y /\ ins !! p = Some x.
Proof. unfold up. intros H. apply bind_Some in H as (p & Hp & H). cbn [nkind nins] in H. unfold state_invariant in H. rewrite andb_false_l, orb_false_r in H. case_bool_decide; [|done]. exists p. split; [by apply position_ok|]. done. Qed.
Lemma mapM_in {A B} (f : A -> option B) l k y : mapM f l = Some k -> y ∈ k -> exists x, x ∈ l /\ f x = Some y.
Proof. intros H Hy. apply mapM_Some in H. apply elem_of_list_lookup in Hy as [i Hi]. destruct (Forall2_lookup_r _ _ _ _ _ H Hi) as (x & Hx & E). exists x. split; [by eapply elem_of_list_lookup_2 | done]. Qed.
Lemma mapM_values {A} (f : A -> option nat) (g : A -> val) (rho : nat -> val) l k : mapM f l = Some k -> (forall x y, x ∈ l -> f x = Some y -> g x = rho y) -> map g l = map rho k.
Proof. intros H%mapM_Some He. induction H as [|x y l k Hxy H IH]; [done|]. cbn [map]. f_equal; [apply He; [by left | done]|]. apply IH. intros z w Hz. apply He. by right. Qed.
(** the node at a path, and its operands, do not depend on the arguments *)
Lemma node_at_args w j A l res A' res' : node_at w j (Region A l res) = node_at w j (Region A' l res').
Proof. destruct w as [|[i k] w]; done. Qed.
Lemma operands_args mem w j A l res A' res' : operands mem w j (Region A l res) = operands mem w j (Region A' l res').
Proof. destruct w as [|[i k] w]; done. Qed.
(** values for additional names *)
Definition sets (rho : nat -> val) (l : list nat) (vs : list val) (x : nat) : val := match list_find (fun y => y = x) l with Some (i, _) => nth i vs (VAny 0) | None => rho x end.
Lemma sets_out rho l vs x : x ∉ l -> sets rho l vs x = rho x.
Proof. intros H. unfold sets. destruct (list_find _ l) as [[i y]|] eqn:E; [|done]. apply list_find_Some in E as (Hi & -> & _). destruct H. by eapply elem_of_list_lookup_2. Qed.
Lemma sets_in rho l vs i x v : NoDup l -> l !! i = Some x -> vs !! i = Some v -> sets rho l vs x = v.
Proof.
  intros Hn Hi Hv. unfold sets. destruct (list_find (fun y => y = x) l) as [[i' y]|] eqn:E.
  - apply list_find_Some in E as (Hi' & -> & _). rewrite (NoDup_lookup _ _ _ _ Hn Hi' Hi). by apply nth_lookup_Some.
  - apply list_find_None in E. rewrite Forall_forall in E. destruct (E x); [by eapply elem_of_list_lookup_2 | done].
Qed.
Lemma sets_map rho l vs : NoDup l -> length vs = length l -> map (sets rho l vs) l = vs.
Proof.
  intros Hn Hl. apply list_eq. intros i. change (map ?f ?m) with (f <$> m). rewrite list_lookup_fmap. destruct (l !! i) as [x|] eqn:E.
  - destruct (lookup_lt_is_Some_2 vs i) as [v Hv]; [rewrite Hl; by eapply lookup_lt_Some|]. cbn. rewrite Hv. f_equal. by eapply sets_in.
  - cbn. symmetry. apply lookup_ge_None. rewrite Hl. by apply lookup_ge_None.
Qed.
Lemma sets_map_out rho l vs k : (forall x, x ∈ k -> x ∉ l) -> map (sets rho l vs) k = map rho k.
Proof. intros H. apply map_ext_in. intros x Hx%elem_of_list_In. apply sets_out. by apply H. Qed.

Lemma seq_new b n x : x ∈ seq b n -> b <= x.
Proof. intros H%elem_of_list_In%in_seq. lia. Qed.
Lemma seq_nodup b n : NoDup (seq b n).
Proof. apply NoDup_ListNoDup, seq_NoDup. Qed.

Lemma deep_node r n : deep r -> n ∈ rnodes r -> wf_node n.
Proof. intros H. inversion H. auto. Qed.
Lemma deep_wf r : deep r -> wf_region r.
Proof. intros H. by inversion H. Qed.
Lemma deep_body r n b : deep r -> n ∈ rnodes r -> b ∈ bodies n -> deep b.
Proof. intros H. inversion H. eauto. Qed.
Lemma add_args_deep s m : deep s -> deep (add_args s (seq (region_bound s) m)).
Proof.
  intros H. destruct H as [s (Hn & Hu & Hr) [rank [Hk Ha]] Hw Hb]. set (a := seq (region_bound s) m).
  assert (Hfresh : forall x, x ∈ names s -> x ∉ a) by (intros x Hx Hin; apply region_bound_ok in Hx; apply seq_new in Hin; lia).
  assert (Hnames : names (add_args s a) ≡ₚ a ++ names s) by (unfold names, add_args; cbn [rargs rnodes]; rewrite (Permutation_app_comm (rargs s) a), <- app_assoc; done).
  constructor.
  - split; [|split].
    + rewrite Hnames. apply NoDup_app. split; [apply seq_nodup|]. split; [|done]. intros x Hx Hin. by apply (Hfresh x).
    + intros n x Hin Hx. rewrite Hnames. apply elem_of_app. right. by eapply Hu.
    + intros x Hx. rewrite Hnames. apply elem_of_app. right. by apply Hr.
  - assert (Hout : forall n y, n ∈ rnodes s -> y ∈ nouts n -> y ∉ a). { intros n y Hin Hy. apply Hfresh. apply elem_of_app. right. apply elem_all_outs. by exists n. }
    exists (fun x => if decide (x ∈ a) then 0 else S (rank x)). cbn [add_args rnodes rargs]. split.
    + intros n x y Hin Hx Hy. rewrite !decide_False; [|by eapply Hout | by eapply Hfresh, Hu]. pose proof (Hk n x y Hin Hx Hy). lia.
    + intros z n y Hz Hin Hy. rewrite (decide_False (P := y ∈ a)) by (by eapply Hout). case_decide as Ez; [lia|]. apply elem_of_app in Hz as [Hz|Hz]; [|done]. pose proof (Ha z n y Hz Hin Hy). lia.
  - done.
  - done.
Qed.

Section Sem.
  Context (other : nat -> list val -> option (list val)) (content : val -> val).
  Notation hold := (hold other content).
  Notation holds := (holds other content).
  Notation runs := (runs other content).
  Notation loops := (loops other content).
  Notation eval := (eval other content).

  (** arguments that nothing uses *)
  Lemma add_args_iff s m vs nv us : wf_region s -> length nv = m -> runs (add_args s (seq (region_bound s) m)) (vs ++ nv) us <-> runs s vs us.
  Proof.
    intros (Hn & Hu & Hr) Hl. rewrite !runs_iff. cbn [add_args rargs rnodes rres].
    assert (Hfresh : forall x, x ∈ names s -> x ∉ seq (region_bound s) m) by (intros x Hx Hin; apply region_bound_ok in Hx; apply seq_new in Hin; lia). split.
    - intros (rho & E & Hh & Eu). exists rho. split; [|done]. rewrite map_app in E. apply app_inj_2 in E as [E _]; [done|]. by rewrite map_length, seq_length.
    - intros (rho & E & Hh & Eu). exists (sets rho (seq (region_bound s) m) nv). split; [|split].
      + rewrite map_app, sets_map, sets_map_out; [by rewrite E | | apply seq_nodup | by rewrite seq_length]. intros x Hx. apply Hfresh. apply elem_of_app. by left.
      + eapply hold_ext; [|exact Hh]. intros n y Hin Hy. symmetry. apply sets_out, Hfresh. apply elem_of_app in Hy as [Hy|Hy]; [by eapply Hu|]. apply elem_of_app. right. apply elem_all_outs. by exists n.
      + rewrite sets_map_out; [done|]. intros x Hx. by apply Hfresh, Hr.
  Qed.
  Lemma alter_perm {A} (f : A -> A) l i n : l !! i = Some n -> alter f i l ≡ₚ f n :: delete i l.
  Proof. intros Hi. revert i Hi. induction l as [|a l IH]; intros [|i] Hi; try done; cbn in Hi |- *; [injection Hi as ->; done|]. rewrite (IH _ Hi). by constructor. Qed.
  Lemma hold_alter rho l i f n : l !! i = Some n -> hold rho (alter f i l) <-> holds rho (f n) /\ hold rho (delete i l).
  Proof. intros Hi. rewrite (hold_perm other content rho _ _ (alter_perm f l i n Hi)). apply hold_cons. Qed.
  Lemma hold_at rho l i n : l !! i = Some n -> hold rho l <-> holds rho n /\ hold rho (delete i l).
  Proof. intros Hi. rewrite (hold_perm other content rho _ _ (delete_Permutation _ _ _ Hi)). apply hold_cons. Qed.

  (** what is known about the region s in which the path goes on; f routes the arguments a to the node; ys are the operands of the node there *)
  Section Body.
    Context (f : list oid -> region -> region) (s : region) (o : op) (ys : list oid) (m : nat).
    Let a : list nat := seq (region_bound s) m.
    Definition given (vs nv : list val) : Prop := forall rho, map rho (rargs s) = vs -> op_sem other o (map rho ys) = Some nv.
    Hypothesis f_args : rargs (f a (add_args s a)) = rargs s ++ a.
    Definition fwd_ok : Prop := forall rho nv, length nv = m -> op_sem other o (map rho ys) = Some nv -> hold rho (rnodes s) -> map rho a = nv ->
      exists rho', map rho' (rargs s ++ a) = map rho (rargs s ++ a) /\ hold rho' (rnodes (f a (add_args s a))) /\ map rho' (rres (f a (add_args s a))) = map rho (rres s).
    Definition bwd_ok : Prop := forall rho nv, length nv = m -> op_sem other o (map rho ys) = Some nv -> hold rho (rnodes (f a (add_args s a))) -> map rho a = nv ->
      exists rho', map rho' (rargs s ++ a) = map rho (rargs s ++ a) /\ hold rho' (rnodes s) /\ map rho' (rres s) = map rho (rres (f a (add_args s a))).
    Hypothesis s_wf : wf_region s.
    Hypothesis ys_args : forall y, y ∈ ys -> y ∈ rargs s.
    Lemma a_fresh x : x ∈ names s -> x ∉ a.
    Proof. intros Hx Hin. apply region_bound_ok in Hx. apply seq_new in Hin. lia. Qed.
    Lemma body_fwd vs nv us : fwd_ok -> length nv = m -> given vs nv -> runs s vs us ->
      exists rho', map rho' (rargs s) = vs /\ map rho' a = nv /\ hold rho' (rnodes (f a (add_args s a))) /\ map rho' (rres (f a (add_args s a))) = us.
    Proof using s_wf ys_args.
      intros Hf Hl Hg Hr. apply runs_iff in Hr as (rho & <- & Hh & <-). destruct s_wf as (Hn & Hu & Hres). set (rho1 := sets rho a nv).
      assert (Ea : map rho1 a = nv) by (apply sets_map; [apply seq_nodup | unfold a; by rewrite seq_length]).
      assert (Es : map rho1 (rargs s) = map rho (rargs s)) by (apply sets_map_out; intros x Hx; apply a_fresh, elem_of_app; by left).
      destruct (Hf rho1 nv Hl) as (rho' & E1 & E2 & E3).
      - apply Hg. exact Es.
      - eapply hold_ext; [|exact Hh]. intros n y Hin Hy. symmetry. apply sets_out, a_fresh. apply elem_of_app in Hy as [Hy|Hy]; [by eapply Hu|]. apply elem_of_app. right. apply elem_all_outs. by exists n.
      - done.
      - rewrite !map_app in E1. apply app_inj_1 in E1 as [E1 E1']; [|by rewrite !map_length]. exists rho'. split; [by rewrite E1|]. split; [by rewrite E1'|]. split; [done|]. rewrite E3. apply sets_map_out. intros x Hx. by apply a_fresh, Hres.
    Qed.
    Lemma body_bwd nv rho : bwd_ok -> length nv = m -> map rho a = nv -> given (map rho (rargs s)) nv -> hold rho (rnodes (f a (add_args s a))) ->
      runs s (map rho (rargs s)) (map rho (rres (f a (add_args s a)))).
    Proof.
      intros Hf Hl Ea Hg Hh. destruct (Hf rho nv Hl) as (rho' & E1 & E2 & E3); [by apply Hg | done | done|]. rewrite !map_app in E1. apply app_inj_1 in E1 as [E1 E1']; [|by rewrite !map_length]. apply runs_iff. by exists rho'.
    Qed.
  End Body.

  (** the structural node on the path *)
  Section Node.
    Context (f : list oid -> region -> region) (N : node) (k : nat) (s : region) (o : op) (xs ys news : list oid) (next : nat).
    Let m : nat := length news.
    Let a : list nat := seq (region_bound s) m.
    Hypothesis f_args : rargs (f a (add_args s a)) = rargs s ++ a.
    Hypothesis N_wf : wf_node N.
    Hypothesis N_bodies : forall b, b ∈ bodies N -> wf_region b.
    Hypothesis s_in : bodies N !! k = Some s.
    Hypothesis xs_ok : mapM (up no_mem N s) ys = Some xs.
    Hypothesis low : forall x, x ∈ nins N ++ nouts N ++ news -> x < next.
    Let N' : node := add_vars next k f news N.
    Lemma s_wf : wf_region s.
    Proof. apply N_bodies. by eapply elem_of_list_lookup_2. Qed.
    Lemma ys_args y : y ∈ ys -> y ∈ rargs s.
    Proof.
      intros Hy. apply mapM_Some in xs_ok as H. apply elem_of_list_lookup in Hy as [t Ht]. destruct (Forall2_lookup_l _ _ _ _ _ H Ht) as (x & _ & E). destruct N as [[o'|subs|b] ins outs].
      - unfold up in E. apply bind_Some in E as (p & _ & E). done.
      - apply up_gamma in E as (p & _ & E & _). by eapply elem_of_list_lookup_2.
      - apply up_theta in E as (p & E & _). by eapply elem_of_list_lookup_2.
    Qed.
    Lemma up_value (rho : nat -> val) (vs : list val) : vs = map rho (nins N) -> forall rho1 : nat -> val, (forall p : nat, (exists subs, nkind N = KGamma subs) -> p = 0 \/ map rho1 (rargs s) !! p = vs !! p) -> ((exists b, nkind N = KTheta b) -> map rho1 (rargs s) = vs) ->
      map rho1 ys = map rho xs.
    Proof.
      intros -> rho1 Hg Ht. eapply mapM_values; [exact xs_ok|]. intros y x Hy E. destruct N as [[o'|subs|b] ins outs].
      - unfold up in E. apply bind_Some in E as (p & _ & E). done.
      - apply up_gamma in E as (p & Hp & Ey & Ex). destruct (Hg p) as [->|Ev]; [by exists subs | done|]. cbn [nins] in Ev. change (map ?f ?m) with (f <$> m) in Ev. rewrite !list_lookup_fmap, Ey, Ex in Ev. by injection Ev.
      - apply up_theta in E as (p & Ey & _ & Ex). assert (Ev : map rho1 (rargs s) !! p = map rho (nins (Node (KTheta b) ins outs)) !! p) by (rewrite Ht; [done | by exists b]). cbn [nins] in Ev. change (map ?f ?m) with (f <$> m) in Ev. rewrite !list_lookup_fmap, Ey, Ex in Ev. by injection Ev.
    Qed.
    (** in a loop the operands keep their values *)
    Lemma theta_given b ins outs vs us nv : N = Node (KTheta b) ins outs -> runs b vs us -> forall us', us = VCtl 1 :: us' -> given b o ys vs nv -> given b o ys us' nv.
    Proof.
      intros EN Hr us' Eus Hg rho1 E1. apply runs_iff in Hr as (rho & <- & Hh & Er). rewrite <- (Hg rho eq_refl). f_equal. apply map_ext_in. intros y Hy%elem_of_list_In.
      apply mapM_Some in xs_ok as H. apply elem_of_list_lookup in Hy as [t Hty]. destruct (Forall2_lookup_l _ _ _ _ _ H Hty) as (x & _ & E). rewrite EN in E. assert (Es : s = b). { rewrite EN in s_in. destruct k; [by injection s_in | done]. }
      apply up_theta in E as (p & Ey & Er' & _). rewrite Es in Ey, Er'. assert (E2 : map rho (rres b) !! S p = map rho1 (rargs b) !! p) by (rewrite Er, Eus, E1; done). change (map ?f ?m) with (f <$> m) in E2. rewrite !list_lookup_fmap, Ey, Er' in E2. by injection E2.
    Qed.
    Lemma node_fwd rho : fwd_ok f s o ys m -> op_sem other o (map rho xs) = Some (map rho news) -> holds rho N -> holds (sets rho (seq next m) (map rho news)) N'.
    Proof.
      intros Hf Ho Hh. pose proof s_wf as Ws. pose proof ys_args as Hys. pose proof up_value as Hup. pose proof theta_given as Htg. set (nv := map rho news) in *. assert (Hl : length nv = m) by (unfold nv, m; by rewrite map_length).
      assert (Eout : forall l, (forall x, x ∈ l -> x ∈ nins N ++ nouts N ++ news) -> map (sets rho (seq next m) nv) l = map rho l).
      { intros l H. apply sets_map_out. intros x Hx Hin. apply seq_new in Hin. pose proof (low x (H x Hx)). lia. }
      unfold N'. destruct N as [[o'|subs|b] ins outs]; [done| |]; cbn [bodies nkind nins nouts] in *.
      - unfold Spec.holds in Hh |- *. cbn [add_vars nkind nins nouts] in Hh |- *. apply gamma_inv in Hh as (k' & s0 & vs0 & E & Hk' & Hr). destruct N_wf as [Hq Hw]. cbn [nins nouts] in Hq, Hw. destruct (Hw s0) as (W0 & L1 & L2); [by eapply elem_of_list_lookup_2|].
        rewrite map_app, (Eout ins), (Eout news), (Eout outs); [|set_solver..]. rewrite E. apply gamma_inv. eexists k', _, _. split; [by rewrite <- app_comm_cons|]. rewrite list_lookup_imap, Hk'. cbn. split; [reflexivity|].
        case_decide as Ek.
        + subst k'. rewrite s_in in Hk'. injection Hk' as <-. destruct (body_fwd f s o ys m Ws Hys (content (VCtl k) :: vs0) nv (map rho outs) Hf Hl) as (rho' & E1 & E2 & E3 & E4); [|done|].
          * intros rho1 E1. rewrite <- Ho. f_equal. eapply Hup; [reflexivity| |by intros [? ?]]. intros p _. destruct p as [|p]; [by left|]. right. rewrite E1. change (nins _) with ins. by rewrite E.
          * apply runs_iff. exists rho'. fold m a in f_args, E2, E3, E4 |- *. rewrite f_args, map_app, E1, E2. done.
        + rewrite app_comm_cons. apply add_args_iff; done.
      - unfold Spec.holds in Hh |- *. cbn [add_vars nkind nins nouts] in Hh |- *. destruct N_wf as (La & Lr & Lo). cbn [nins nouts nkind] in La, Lr, Lo. rewrite !map_app, (Eout ins), (Eout news), (Eout outs), sets_map; [|apply seq_nodup | by rewrite seq_length | set_solver..].
        destruct k as [|k0]; [|done]. injection s_in as <-. inversion Hh as [| |b0 vs0 ws0 Hl0]; subst b0 vs0 ws0. constructor. clear Hh.
        assert (Hg : given b o ys (map rho ins) nv).
        { intros rho1 E1. rewrite <- Ho. f_equal. eapply Hup; [reflexivity | by intros p [? ?]|]. intros _. done. }
        revert Hg. generalize (map rho outs), (map rho ins), Hl0. fold m a. intros ws vs Hloop. 
        assert (Hbody : forall vs us, given b o ys vs nv -> runs b vs us -> runs (Region (rargs (f a (add_args b a))) (rnodes (f a (add_args b a))) (rres (f a (add_args b a)) ++ a)) (vs ++ nv) (us ++ nv)).
        { intros v u Hg Hr. destruct (body_fwd f b o ys m Ws Hys v nv u Hf Hl Hg Hr) as (rho' & E1 & E2 & E3 & E4). fold a in E2, E3, E4. apply runs_iff. exists rho'. cbn [rargs rnodes rres]. rewrite f_args, !map_app, E1, E2, E4. done. }
        remember b as b1 eqn:Eb in Hloop. induction Hloop as [b1 vs ws Hr|b1 vs us ws Hr Hloop IH]; subst b1; intros Hg.
        + apply l_exit. rewrite app_comm_cons. by apply Hbody.
        + eapply l_again; [rewrite app_comm_cons; by apply Hbody|]. apply IH; [done|]. eapply Htg; [reflexivity | exact Hr | reflexivity | done].
    Qed.
    Lemma node_bwd rho : bwd_ok f s o ys m -> op_sem other o (map rho xs) = Some (map rho news) -> holds rho N' -> holds rho N.
    Proof.
      intros Hf Ho Hh. pose proof s_wf as Ws. pose proof ys_args as Hys. pose proof up_value as Hup. pose proof theta_given as Htg. set (nv := map rho news) in *. assert (Hl : length nv = m) by (unfold nv, m; by rewrite map_length).
      unfold N' in Hh. destruct N as [[o'|subs|b] ins outs]; [done| |]; cbn [bodies nkind nins nouts] in *.
      - unfold Spec.holds in Hh |- *. cbn [add_vars nkind nins nouts] in Hh |- *. apply gamma_inv in Hh as (k' & s0' & vs0' & E & Hk' & Hr). destruct N_wf as [Hq Hw]. cbn [nins nouts] in Hq, Hw. rewrite list_lookup_imap in Hk'. apply fmap_Some in Hk' as (s0 & Hk' & Es0). destruct (Hw s0) as (W0 & L1 & L2); [by eapply elem_of_list_lookup_2|].
        destruct ins as [|q es]; [cbn in Hq; lia|]. rewrite map_app in E. cbn [map] in E. rewrite <- app_comm_cons in E. injection E as Eq <-. fold nv in Hr.
        apply gamma_inv. exists k', s0, (map rho es). split; [cbn [map]; by rewrite Eq|]. split; [done|]. case_decide as Ek.
        + subst k'. rewrite s_in in Hk'. injection Hk' as <-. subst s0'. fold m a in Hr. apply runs_iff in Hr as (rho' & E1 & E2 & E3). rewrite f_args, map_app, app_comm_cons in E1. apply app_inj_2 in E1 as [E1 E1']; [|unfold a; rewrite map_length, seq_length; lia].
          rewrite <- E3, <- E1. eapply (body_bwd f s o ys m nv rho' Hf Hl E1'); [|done]. intros rho1 E4. rewrite <- Ho. f_equal. eapply Hup; [reflexivity| |by intros [? ?]]. intros p _. destruct p as [|p]; [by left|]. right. rewrite E4, E1. done.
        + subst s0'. rewrite app_comm_cons in Hr. by apply add_args_iff in Hr.
      - unfold Spec.holds in Hh |- *. cbn [add_vars nkind nins nouts] in Hh |- *. destruct N_wf as (La & Lr & Lo). cbn [nins nouts nkind] in La, Lr, Lo. rewrite !map_app in Hh.
        destruct k as [|k0]; [|done]. injection s_in as <-. inversion Hh as [| |b0 vs0 ws0 Hl0]; subst b0 vs0 ws0. constructor. clear Hh. fold nv m a in Hl0.
        assert (Hg : given b o ys (map rho ins) nv).
        { intros rho1 E1. rewrite <- Ho. f_equal. eapply Hup; [reflexivity | by intros p [? ?]|]. intros _. done. }
        assert (Hbody : forall vs us', given b o ys vs nv -> runs (Region (rargs (f a (add_args b a))) (rnodes (f a (add_args b a))) (rres (f a (add_args b a)) ++ a)) (vs ++ nv) us' -> exists us, us' = us ++ nv /\ runs b vs us).
        { intros v u' Hgv Hr. apply runs_iff in Hr as (rho' & E1 & E2 & E3). cbn [rargs rnodes rres] in E1, E2, E3. rewrite f_args, map_app in E1. apply app_inj_2 in E1 as [E1 E1']; [|unfold a; rewrite map_length, seq_length; lia]. rewrite map_app, E1' in E3. exists (map rho' (rres (f a (add_args b a)))). split; [done|].
          rewrite <- E1. eapply (body_bwd f b o ys m nv rho' Hf Hl E1'); [by rewrite E1 | done]. }
        set (ws' := map rho outs ++ map rho (seq next m)) in Hl0. assert (Hlen : length (map rho (seq next m)) = length nv) by (rewrite map_length, seq_length; lia).
        cut (exists ws, ws' = ws ++ nv /\ loops b (map rho ins) ws).
        { intros (ws & E & Hloop). unfold ws' in E. apply app_inj_2 in E as [-> _]; done. }
        revert Hg Hl0. generalize ws', (map rho ins). clear ws' Hlen Ho Hup. intros ws' vs Hg Hloop. remember (vs ++ nv) as vs' eqn:Evs. revert vs Hg Evs.
        remember (Region (rargs (f a (add_args b a))) (rnodes (f a (add_args b a))) (rres (f a (add_args b a)) ++ a)) as b1 eqn:Eb in Hloop. induction Hloop as [b1 vs' ws' Hr|b1 vs' us' ws' Hr Hloop IH]; subst b1; intros vs Hg ->.
        + apply Hbody in Hr as (us & E & Hr); [|done]. destruct us as [|u us].
          * exfalso. apply runs_iff in Hr as (rho' & _ & _ & E'). apply (f_equal length) in E'. rewrite map_length in E'. cbn in E'. lia.
          * injection E as <- ->. exists us. split; [done|]. by apply l_exit.
        + apply Hbody in Hr as (us & E & Hr); [|done]. destruct us as [|u us].
          * exfalso. apply runs_iff in Hr as (rho' & _ & _ & E'). apply (f_equal length) in E'. rewrite map_length in E'. cbn in E'. lia.
          * injection E as <- ->. destruct (IH eq_refl us) as (ws & -> & Hloop'); [|done|].
            { eapply Htg; [reflexivity | exact Hr | reflexivity | done]. }
            exists ws. split; [done|]. by eapply l_again.
    Qed.
  End Node.
End Sem.
