(** Regions, and the graph of a lambda node's region. *)
From stdpp Require Import base list gmap.
From Coq Require Import Lia.
From Verif.Construct Require Import Model Spec.
From Verif.Cfg Require Import Model Spec ProofsBase.
From Verif.LocalRegion Require Import Model Spec Facts.
From Verif.Unswitch Require Import Spec.
From Verif.Sinking Require Import Spec.
From Verif.Hoisting Require Import Spec.
From Verif.Destruct Require Import Model Spec Proofs1 Proofs2 Proofs3 Proofs4.

Lemma well_inv r : well r -> wf_region r /\ (forall n, n ∈ rnodes r -> wf_node n /\ forall subs, nkind n = KGamma subs -> 1 < length subs) /\ (forall n b, n ∈ rnodes r -> b ∈ bodies n -> well b).
Proof. intros H. by inversion H. Qed.
Lemma region_eq r : r = Region (rargs r) (rnodes r) (rres r).
Proof. by destruct r. Qed.
Section Sem.
  Context (opcode : op -> nat) (other : nat -> list val -> option (list val)) (content : val -> val) (sem : nat -> list val -> option (list val)) (truth : val -> bool) (K : Prop).
  Context (Hsem : K -> forall o vs, sem (opcode o) vs = op_sem other o vs).
  Notation runsN := (runsN sem truth).
  Notation from := (from sem truth).
  Notation correct := (correct sem truth K).
  Notation hold := (hold other content).
  Lemma convert_region_correct r : well r -> region_correct other content sem truth K (convert_region opcode) r.
  Proof using Hsem.
    set (P := fun n => wf_node n -> (forall subs, nkind n = KGamma subs -> 1 < length subs) -> (forall b, b ∈ bodies n -> well b) -> forall e s e' s', convert_node opcode n e s = Some (e', s') -> ok s -> bounded e (nv s) -> correct e s e' s' (nouts n) (fun rho => holds other content rho n)).
    revert r. apply (all_region P (fun r => well r -> region_correct other content sem truth K (convert_region opcode) r)).
    - intros o ins outs _ _ _ e s e' s' H. apply (simple_correct opcode); [done | exact H].
    - intros subs ins outs HF Hwf Hlen Hb e s e' s' H Hk Hbd. unfold wf_node, wf_gamma in Hwf. cbn [nkind nins nouts] in Hwf. destruct Hwf as [Hl Hw]. destruct ins as [|p es]; [cbn in Hl; lia|]. eapply (gamma_correct opcode); [| by apply Hlen | | exact H | done | done].
      + intros r Hr. rewrite Forall_forall in HF. apply HF; [done|]. by apply Hb.
      + intros r Hr. destruct (Hw r Hr) as ((Hn & _) & H1 & H2). done.
    - intros b ins outs HF Hwf Hlen Hb e s e' s' H Hk Hbd. unfold wf_node in Hwf. cbn [nkind nins nouts] in Hwf. destruct Hwf as (H1 & H2 & H3). assert (Hwb : well b) by (apply Hb; by left). eapply (theta_correct opcode); [by apply HF | | done | done | done | exact H | done | done]. by destruct (well_inv _ Hwb) as ((Hn & _) & _).
    - intros args ns res HF Hw e s e' s' H Hk Hbd. cbn [convert_region] in H. fold (convert_node opcode) in H. apply bind_Some in H as ([e1 t] & H & [= <- <-]). exists t. split; [done|]. cbn [rnodes]. destruct (well_inv _ Hw) as (_ & W1 & W2). cbn [rnodes] in W1, W2.
      eapply convert_nodes_correct; [|exact H | by apply next_block_ok | exact Hbd]. intros n e2 s2 e3 s3 Hn. rewrite Forall_forall in HF. destruct (W1 n Hn) as [V1 V2]. apply (HF n Hn V1 V2). intros b Hb. by eapply W2.
  Qed.
End Sem.

Lemma start_ok next : ok (State {[2 := Block [] []]} 2 3 next).
Proof.
  split; cbn [nb bl cur]; [lia| |exists []; by rewrite lookup_singleton]. intros n. destruct (decide (n = 2)) as [->|Hn]; [rewrite lookup_singleton; split; [lia | eauto]|]. rewrite lookup_singleton_ne by done. split; [by intros [? ?] | lia].
Qed.
Lemma create_graph_implements opcode r params next g results : well r -> (forall v, v ∈ params -> v < next) -> create_graph opcode r params next = Some (g, results) -> @implements opcode r params g results.
Proof.
  intros Hw Hp H other content sem truth Hsem σ ws. unfold create_graph in H. apply bind_Some in H as (e & He & H). set (s := State {[2 := Block [] []]} 2 3 next) in *. apply bind_Some in H as ([e' s'] & Hr & H). apply bind_Some in H as (rs & Hres & [= <- <-]).
  assert (Hk : ok s) by apply start_ok. destruct (insert_vars_inv _ _ _ _ He) as (Hla & Hnd & _ & _ & Hin).
  assert (Hargs : forall x v, e !! x = Some v -> exists j, rargs r !! j = Some x /\ params !! j = Some v). { intros x v Hx. apply (insert_vars_cases _ _ _ _ _ _ He) in Hx as [Hx|Hx]; [by rewrite lookup_empty in Hx | exact Hx]. }
  assert (Hb : bounded e (nv s)). { intros x v Hx. destruct (Hargs x v Hx) as (j & _ & Hj). apply Hp. by eapply elem_of_list_lookup_2. }
  destruct (convert_region_correct opcode other content sem truth True (fun _ => Hsem) r Hw _ _ _ _ Hr Hk Hb) as (t & -> & Ht). set (a := next_block s) in *.
  assert (Hka : ok a) by (by apply next_block_ok). pose proof (c_ok _ _ _ _ _ _ _ _ _ Ht) as Hkt. pose proof (c_grow _ _ _ _ _ _ _ _ _ Ht) as Hg. pose proof (ok_cur_lt _ Hkt) as Hct. pose proof (g_nb _ _ Hg) as Hgn. pose proof (g_cur _ _ Hg) as Hgc. change (nb a) with 4 in *. change (cur a) with 3 in *.
  set (lb := nb t) in *. change (cur (next_block t)) with lb in *. destruct (ok_cur t Hkt) as [ct Hcc].
  set (G := bl (add_edge lb exit (next_block t))).
  assert (HG : forall n, G !! n = if decide (n = lb) then Some (Block [] [exit]) else if decide (n = cur t) then Some (Block ct [lb]) else bl t !! n).
  { intros n. unfold G, add_edge. cbn [bl]. case_decide as E1; [subst n; rewrite lookup_alter, next_block_bl by done; by rewrite decide_True|]. rewrite lookup_alter_ne by done. rewrite next_block_bl by done. rewrite decide_False by done. case_decide as E2; [subst n; by rewrite Hcc | done]. }
  assert (EG2 : G !! 2 = Some (Block [] [3])). { rewrite HG, decide_False, decide_False by lia. rewrite (g_old _ _ Hg) by (cbn; lia). unfold a. rewrite next_block_bl by done. cbn [nb cur s bl]. rewrite decide_False, decide_True by done. by rewrite lookup_singleton. }
  assert (EGt : G !! cur t = Some (Block ct [lb])) by (rewrite HG, decide_False, decide_True by lia; done).
  assert (EGl : G !! lb = Some (Block [] [exit])) by (rewrite HG, decide_True by done; done).
  assert (EGx : G !! exit = None). { rewrite HG, decide_False, decide_False by (unfold exit; lia). pose proof (ok_dom t Hkt exit) as Hd. destruct (bl t !! exit) eqn:E; [|done]. exfalso. assert (1 < exit < nb t) by (apply Hd; eauto). unfold exit in *. lia. }
  assert (Hfit : fits G a t).
  { split; [intros n Hn Hne; change (nb a) with 4 in Hn; change (cur a) with 3 in Hn; rewrite HG, decide_False, decide_False by lia; done|]. exists ct, [], [lb]. cbn [fmap list_fmap]. rewrite app_nil_r. done. }
  assert (Hbla : bl a !! cur a = Some (Block [] [])) by (unfold a; rewrite next_block_bl by done; rewrite decide_True by done; done).
  destruct (fits_here G a t Hka Hkt Hg Hfit) as (c1 & ts & ss & F1 & F2). rewrite Hbla in F1. injection F1 as <-. cbn [app] in F2.
  assert (Hrun : forall σ σf, executes as_ctl sem truth (Cfg G 2) σ σf <-> exists k, from sem truth G a k σ σf).
  { intros σ0 σf. unfold executes. rewrite runsN_iff. cbn [blocks start]. split.
    - intros [k Hx]. apply (enter_goto sem truth G 2 [] 3 entry k σ0 σf ltac:(done) EG2) in Hx as (k' & us & -> & [= <-] & Hx). apply (enter_from sem truth G a [] ts ss 2 k' σ0 σf ltac:(done) Hbla F2) in Hx as (k2 & us & -> & [= <-] & Hx). by exists k2.
    - intros [k Hx]. exists (S (S k)). apply (enter_goto sem truth G 2 [] 3 entry _ σ0 σf ltac:(done) EG2). exists (S k), []. split; [done|]. split; [done|]. apply (enter_from sem truth G a [] ts ss 2 _ σ0 σf ltac:(done) Hbla F2). by exists k, []. }
  assert (Hend : forall σ σf, (exists k, from sem truth G t k σ σf) <-> σf = σ).
  { intros σ0 σf. split.
    - intros [k Hx]. apply (from_goto sem truth G t ct lb k σ0 σf Hcc EGt) in Hx. apply (enter_goto sem truth G lb [] exit (cur t) k σ0 σf ltac:(unfold exit; lia) EGl) in Hx as (k' & us & -> & [= <-] & Hx). inversion Hx as [|k0 prev n b σ1 σ2 m σ3 Hbx]; subst; [done|]. by rewrite EGx in Hbx.
    - intros ->. exists 1. apply (from_goto sem truth G t ct lb _ σ0 σ0 Hcc EGt). apply (enter_goto sem truth G lb [] exit (cur t) _ σ0 σ0 ltac:(unfold exit; lia) EGl). exists 0, []. split; [done|]. split; [done|]. constructor. }
  split.
  - intros Hruns. apply runs_iff in Hruns as (rho & R1 & R2 & R3).
    assert (Ha : agree e σ rho). { intros x v Hx. destruct (Hargs x v Hx) as (j & Hj & Hv). apply (f_equal (fun l => l !! j)) in R1. change (map rho (rargs r)) with (rho <$> rargs r) in R1. change (map σ params) with (σ <$> params) in R1. rewrite !list_lookup_fmap, Hj, Hv in R1. by injection R1. }
    destruct (c_fwd _ _ _ _ _ _ _ _ _ Ht I G Hfit rho σ R2 Ha) as (σ' & K1 & K2 & K3). exists σ'. split.
    + apply Hrun. destruct (proj2 (Hend σ' σ') eq_refl) as [k Hx]. by eapply K3.
    + rewrite <-R3. symmetry. by apply (map_agree e').
  - intros (σ' & Hx & ->). apply Hrun in Hx as [k Hx]. destruct (c_bwd _ _ _ _ _ _ _ _ _ Ht I G Hfit _ _ _ Hx) as (σ1 & k' & _ & K1 & K2 & K3). assert (σ' = σ1) as -> by (apply Hend; eauto).
    set (rho := fun x => match e' !! x with Some v => σ1 v | None => VAny 0 end). assert (Hrho : agree e' σ1 rho) by (intros x v Hv; unfold rho; by rewrite Hv). apply runs_iff. exists rho. split; [|split].
    + apply map_eq_lookup; [by rewrite map_length|]. intros j x Hj. destruct (lookup_lt_is_Some_2 params j) as [v Hv]; [rewrite <-Hla; by eapply lookup_lt_Some|]. change (map σ params) with (σ <$> params). rewrite list_lookup_fmap, Hv. cbn. f_equal. assert (E : e !! x = Some v) by (rewrite (Hin j x Hj); done). rewrite <-(Hrho x v) by (by apply (c_sub _ _ _ _ _ _ _ _ _ Ht)). symmetry. apply K1. apply Hp. by eapply elem_of_list_lookup_2.
    + by apply K3.
    + symmetry. by apply (map_agree e').
Qed.
