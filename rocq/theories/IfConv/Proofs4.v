(** The pass. *)
From stdpp Require Import base list gmap.
From Coq Require Import ZArith Lia.
From Verif.LocalRegion Require Import Model Spec Facts.
From Verif.Unswitch Require Import Model Spec Proofs1 Proofs3 Proofs5 Proofs6 Proofs7.
From Verif.IfConv Require Import Model Spec Proofs1 Proofs2 Proofs3.
Open Scope nat_scope.

Lemma convert_at_cases r i : (exists r0 r1 q es outs, rnodes r !! i = Some (Node (KGamma [r0; r1]) (q :: es) outs)) \/ convert_at r i = Some r /\ forall r0 r1 q es outs, rnodes r !! i <> Some (Node (KGamma [r0; r1]) (q :: es) outs).
Proof.
  unfold convert_at. destruct (rnodes r !! i) as [[[o|[|r0 [|r1 [|]]]|b] [|q es] outs]|]; try (by right). left. by exists r0, r1, q, es, outs.
Qed.
Definition bodies_from (l l' : list node) : Prop := forall b ins outs, Node (KTheta b) ins outs ∈ l' -> exists ins0, Node (KTheta b) ins0 outs ∈ l.
Section Pass.
  Context (other : nat -> list val -> option (list val)) (content : val -> val).
  Local Notation holds := (holds other content).
  Local Notation hold := (hold other content).
  Local Notation same := (same other content).

  Lemma convert_at_ok r i r' : good_region r -> convert_at r i = Some r' -> same r r' /\ good_region r' /\ bodies_from (rnodes r) (rnodes r') /\ rargs r' = rargs r.
  Proof.
    intros Hg. destruct (convert_at_cases r i) as [(r0 & r1 & q & es & outs & E)|[-> _]]; [|intros [= <-]; split; [done|]; split; [done|]; split; [|done]; intros b ins outs H; by exists ins].
    unfold convert_at. rewrite E. destruct (convert_outs _ _ _ _ _ _ _) as [[[news olds] ys]|] eqn:Ec; [|done]. cbn. intros [= <-]. apply elem_of_list_lookup_2 in E. destruct r as [A l res]. cbn [rargs rnodes rres] in *.
    split; [by apply (converted_same other content A l res r0 r1 q es outs)|]. split; [by apply (converted_good other content A l res r0 r1 q es outs)|]. split; [|done].
    intros b ins o H. apply elem_of_app in H as [H|H].
    - apply elem_of_list_fmap in H as ([k ins0 o0] & E1 & Hm). unfold divert_node in E1. cbn in E1. injection E1 as <- _ ->. by exists ins0.
    - destruct (conv other content A l res r0 r1 q es outs news olds ys Hg E Ec) as ((_ & M2 & _) & _). destruct (M2 _ H) as (o' & Ho & _). done.
  Qed.
  Lemma same_trans' r1 r2 r3 : same r1 r2 -> same r2 r3 -> same r1 r3.
  Proof. intros H1 H2 vs ws. by rewrite (H1 vs ws). Qed.
  Lemma bodies_trans l1 l2 l3 : bodies_from l1 l2 -> bodies_from l2 l3 -> bodies_from l1 l3.
  Proof. intros H1 H2 b ins outs H. destruct (H2 _ _ _ H) as (ins0 & H0). by eapply H1. Qed.
  Definition steps (is : list nat) (o : option region) : option region := foldl (fun r i => r ≫= fun r => convert_at r i) o is.
  Lemma steps_none is : steps is None = None.
  Proof. induction is as [|i is IH]; [done|]. exact IH. Qed.
  Lemma steps_ok is : forall r r', good_region r -> steps is (Some r) = Some r' -> same r r' /\ good_region r' /\ bodies_from (rnodes r) (rnodes r') /\ rargs r' = rargs r.
  Proof.
    induction is as [|i is IH]; intros r r' Hg; unfold steps; cbn [foldl mbind option_bind].
    - intros [= <-]. split; [done|]. split; [done|]. split; [|done]. intros b ins outs H. by exists ins.
    - destruct (convert_at r i) as [r1|] eqn:E1; [|intros H; fold (steps is None) in H; by rewrite steps_none in H]. intros H. fold (steps is (Some r1)) in H. destruct (convert_at_ok r i r1 Hg E1) as (A1 & A2 & A3 & A4). destruct (IH r1 r' A2 H) as (B1 & B2 & B3 & B4). split; [by eapply same_trans'|]. split; [done|]. split; [by eapply bodies_trans | congruence].
  Qed.
  (** the bodies of loops *)
  Definition convert_body (n : node) : option node := match n with Node k ins outs => k ← match k with KTheta b => b ← if_convert b; Some (KTheta b) | _ => Some k end; Some (Node k ins outs) end.
  Lemma if_convert_eq A l res : if_convert (Region A l res) = (mapM convert_body l ≫= fun l' => steps (seq 0 (length l')) (Some (Region A l' res))).
  Proof.
    cbn [if_convert]. f_equal. clear A res. induction l as [|[k ins outs] l IH]; [done|]. cbn [mapM convert_body]. destruct k as [o|subs|b]; cbn [mbind option_bind].
    - by rewrite IH.
    - by rewrite IH.
    - destruct (if_convert b) as [b'|]; [|done]. cbn [mbind option_bind]. by rewrite IH.
  Qed.
  Definition body_same (n n' : node) : Prop := nins n' = nins n /\ nouts n' = nouts n /\ (nkind n' = nkind n \/ exists b b', nkind n = KTheta b /\ nkind n' = KTheta b' /\ same b b').
  Lemma body_same_holds n n' rho : body_same n n' -> holds rho n <-> holds rho n'.
  Proof.
    intros (E1 & E2 & [E3|(b & b' & E3 & E4 & Hs)]); unfold Spec.holds; rewrite E1, E2; [by rewrite E3|]. rewrite E3, E4. assert (Hs' : same b' b) by (intros v w; by rewrite (Hs v w)).
    split; intros H; inversion H as [| |b0 vs0 ws0 Hl]; subst; constructor; by eapply loops_same.
  Qed.
  Lemma bodies_same A l l' res : Forall2 body_same l l' -> same (Region A l res) (Region A l' res).
  Proof.
    intros HF vs ws. rewrite !runs_iff. cbn [rargs rnodes rres]. assert (H : forall rho, hold rho l <-> hold rho l').
    { intros rho. induction HF as [|n n' l l' Hn HF IH]; [done|]. rewrite !hold_cons, IH. by rewrite (body_same_holds n n' rho Hn). }
    by setoid_rewrite H.
  Qed.
  Lemma bodies_outs l l' : Forall2 body_same l l' -> all_outs l' = all_outs l.
  Proof. induction 1 as [|n n' l l' (_ & Ho & _) HF IH]; [done|]. by rewrite !all_outs_cons, IH, Ho. Qed.
  Lemma bodies_elem l l' n' : Forall2 body_same l l' -> n' ∈ l' -> exists n, n ∈ l /\ body_same n n'.
  Proof. intros HF H. apply elem_of_list_lookup in H as [i Hi]. destruct (Forall2_lookup_r _ _ _ _ _ HF Hi) as (n & Hn & Hb). exists n. split; [by eapply elem_of_list_lookup_2 | done]. Qed.
  Lemma bodies_good A l l' res : Forall2 body_same l l' -> good_region (Region A l res) -> good_region (Region A l' res).
  Proof.
    intros HF ((W1 & W2 & W3) & (rank & R1 & R2) & (ty & T1 & T2 & T3) & K). pose proof (bodies_outs _ _ HF) as Ho. cbn [rnodes rres rargs] in *. unfold names in *. cbn [rnodes rargs] in *.
    assert (Hk : forall k ins outs, (forall b, k <> KTheta b) -> Node k ins outs ∈ l' -> Node k ins outs ∈ l).
    { intros k ins outs Hk H. destruct (bodies_elem _ _ _ HF H) as ([k0 i0 o0] & H0 & (E1 & E2 & [E3|(b & b' & _ & E4 & _)])); cbn in *; [by subst | by apply Hk in E4]. }
    split; [split; [|split]|split; [|split]]; unfold names; cbn [rnodes rres rargs]; rewrite ?Ho; try done.
    - intros n x Hn Hx. destruct (bodies_elem _ _ _ HF Hn) as (m & Hm & (E1 & _)). rewrite E1 in Hx. by eapply W2.
    - exists rank. cbn [rnodes rargs]. split; [intros n x y Hn Hx Hy | intros a n y Ha Hn Hy]; destruct (bodies_elem _ _ _ HF Hn) as (m & Hm & (E1 & E2 & _)); rewrite ?E1 in *; rewrite ?E2 in *; [by eapply R1 | by eapply R2].
    - exists ty. split; [|split].
      + intros subs q es outs H. apply (T1 subs q es outs). by apply Hk.
      + intros w m d ins outs y p H. apply (T2 w m d ins outs y p). by apply Hk.
      + intros subs q es outs s j i x y o H. apply (T3 subs q es outs s j i x y o). by apply Hk.
    - intros n Hn. destruct (bodies_elem _ _ _ HF Hn) as (m & Hm & (E1 & E2 & E3)). destruct (K m Hm) as [K1 K2]. unfold wf_gamma, good_match in *. rewrite E1, E2. destruct E3 as [E3|(b & b' & E3 & E4 & _)]; [by rewrite E3 | by rewrite E4].
  Qed.
  Lemma if_convert_ok r : good r -> forall r', if_convert r = Some r' -> same r r' /\ good r' /\ rargs r' = rargs r.
  Proof.
    induction 1 as [[A l res] Hr Hb IH]. intros r' H. rewrite if_convert_eq in H. destruct (mapM convert_body l) as [l'|] eqn:El; [|done]. cbn [mbind option_bind] in H. cbn [rnodes] in *. apply mapM_Some in El.
    assert (HF : Forall2 body_same l l' /\ forall b ins outs, Node (KTheta b) ins outs ∈ l' -> good b).
    { clear H Hr. induction El as [|n n' l l' Hn El IHl]; [split; [done|]; intros b ins outs H; by apply elem_of_nil in H|]. destruct IHl as [F1 F2]; [intros b ins outs H; apply (Hb b ins outs); by right | intros b ins outs H; apply (IH b ins outs); by right |].
      destruct n as [k ins outs]. destruct k as [o|subs|b]; cbn in Hn.
      - injection Hn as <-. split; [constructor; [split; [done|]; split; [done|]; by left | done]|]. intros b i2 o2 H. apply elem_of_cons in H as [H|H]; [done | by eapply F2].
      - injection Hn as <-. split; [constructor; [split; [done|]; split; [done|]; by left | done]|]. intros b i2 o2 H. apply elem_of_cons in H as [H|H]; [done | by eapply F2].
      - destruct (if_convert b) as [b'|] eqn:Eb; [|done]. cbn in Hn. injection Hn as <-. destruct (IH b ins outs ltac:(by left) b' Eb) as (G1 & G2 & _). split.
        + constructor; [|done]. split; [done|]. split; [done|]. right. by exists b, b'.
        + intros b2 i2 o2 H. apply elem_of_cons in H as [H|H]; [injection H as -> _ _; done | by eapply F2]. }
    destruct HF as [HF Hg']. destruct (steps_ok _ _ _ (bodies_good A l l' res HF Hr) H) as (S1 & S2 & S3 & S4). split; [|split].
    - eapply same_trans'; [by apply bodies_same | exact S1].
    - constructor; [done|]. intros b ins outs Hin. destruct (S3 _ _ _ Hin) as (ins0 & Hin'). by eapply Hg'.
    - done.
  Qed.

  (** the pass comes through *)
  Lemma convert_outs_total l q es r0 r1 : good_owner l q -> (forall w v a d mo rest mouts, owner l q = Some (Node (KSimple (OMatch w [(v, a)] d)) (mo :: rest) mouts) -> a <> d) ->
    (forall r, r = r0 \/ r = r1 -> length (rargs r) = S (length es) /\ forall x, x ∈ rres r -> Some x <> head (rargs r)) -> forall ts, (forall x y0 y1, (x, (y0, y1)) ∈ ts -> y0 ∈ rres r0 /\ y1 ∈ rres r1) -> forall next, is_Some (convert_outs l q es r0 r1 ts next).
  Proof.
    intros Hg Hm Hr ts. induction ts as [|[x [y0 y1]] ts IH]; intros Ht next; [by eexists|]. cbn [convert_outs].
    assert (IH' : forall n, is_Some (convert_outs l q es r0 r1 ts n)) by (apply IH; intros; eapply Ht; by right).
    destruct (Ht x y0 y1 ltac:(by left)) as [Hy0 Hy1].
    assert (Hi : forall r y i, r = r0 \/ r = r1 -> y ∈ rres r -> arg_index r y = Some i -> exists j o, i = S j /\ es !! j = Some o).
    { intros r y i Hrr Hy Hi. apply arg_index_lookup in Hi. destruct (Hr r Hrr) as [Hl Hh]. destruct i as [|j]; [exfalso; apply (Hh y Hy); by destruct (rargs r)|]. exists j. apply lookup_lt_Some in Hi. destruct (lookup_lt_is_Some_2 es j) as [o Ho]; [lia|]. by exists o. }
    destruct (convert_out l q es r0 r1 y0 y1 next) as [|news y|] eqn:Ec; [done| |].
    - destruct (IH' (next + length news)) as [[[z olds] ys] Hz]. rewrite Hz. by eexists.
    - exfalso. unfold convert_out in Ec. destruct (arg_index r0 y0) as [i0|] eqn:E0; [|done]. destruct (arg_index r1 y1) as [i1|] eqn:E1; [|by destruct i0]. destruct (Hi r0 y0 i0 ltac:(by left) Hy0 E0) as (j0 & o0 & -> & F0). destruct (Hi r1 y1 i1 ltac:(by right) Hy1 E1) as (j1 & o1 & -> & F1). rewrite F0, F1 in Ec.
      destruct (decide (o0 = o1)); [done|]. destruct (owner l q) as [[[o| |] mi mouts]|] eqn:Eo; try done. destruct o as [| |w mapping d| | | |]; try done. destruct mi as [|mo rest]; [done|]. destruct mapping as [|[cv cs] [|]]; try done. specialize (Hm _ _ _ _ _ _ _ eq_refl). rewrite decide_False in Ec by done.
      destruct (decide (w = 1%Z /\ cv = Z.of_nat cs)); [done|]. destruct (Hg _ Eo) as ((Hw & Hk) & _). destruct (Hk (cv, cs) ltac:(by left)) as (K1 & K2 & K3). by rewrite (constant_ok w cv Hw K1 K2 K3) in Ec.
  Qed.
  Lemma convert_at_total r i : good_region r -> (forall n, n ∈ rnodes r -> plain_node n) -> exists r', convert_at r i = Some r' /\ forall n, n ∈ rnodes r' -> plain_node n.
  Proof.
    intros Hg Hp. destruct (convert_at_cases r i) as [(r0 & r1 & q & es & outs & E)|[H _]]; [|by exists r]. destruct r as [A l res]. cbn [rnodes] in *. unfold convert_at. cbn [rnodes rargs rres]. rewrite E. pose proof (elem_of_list_lookup_2 _ _ _ E) as Hin.
    pose proof (owner_good A l res r0 r1 q es outs Hg Hin) as Ho. destruct Hg as (Wf & Ac & Ty & K) eqn:EG. cbn [rnodes] in K. destruct (K _ Hin) as [(_ & Wg) _]. pose proof (Hp _ Hin) as Pg. cbn [plain_node nkind nins nouts] in *.
    destruct (convert_outs_total l q es r0 r1 Ho) with (ts := zip outs (zip (rres r0) (rres r1))) (next := region_bound (Region A l res)) as [[[news olds] ys] Hc].
    - intros w v a d mo rest mouts Hm. apply owner_ok in Hm as [Hm _]. by specialize (Hp _ Hm).
    - intros r Hr. assert (Hrs : r ∈ [r0; r1]) by (destruct Hr as [-> | ->]; [by left | by right; left]). destruct (Wg r Hrs) as (_ & Hl & _). split; [exact Hl|]. intros x Hx. by apply Pg.
    - intros x y0 y1 Hz. apply elem_zip in Hz as (j & _ & Hz). apply lookup_zip_with_Some in Hz as (a & b & [= <- <-] & Ha & Hb). split; by eapply elem_of_list_lookup_2.
    - rewrite Hc. cbn [mbind option_bind]. eexists. split; [reflexivity|]. cbn [rnodes]. intros n Hn. apply elem_of_app in Hn as [Hn|Hn].
      + apply elem_of_list_fmap in Hn as (m & -> & Hm). exact (Hp m Hm).
      + destruct (convert_outs_ok other content l q es r0 r1 _ _ news olds ys Ho Hc) as ((_ & M2 & _) & _). by destruct (M2 _ Hn) as (o' & _ & _ & Hpl & _).
  Qed.
  Lemma steps_total is : forall r, good_region r -> (forall n, n ∈ rnodes r -> plain_node n) -> is_Some (steps is (Some r)).
  Proof.
    induction is as [|i is IH]; intros r Hg Hp; [by eexists|]. unfold steps. cbn [foldl mbind option_bind]. destruct (convert_at_total r i Hg Hp) as (r' & E & Hp'). rewrite E. destruct (convert_at_ok r i r' Hg E) as (_ & Hg' & _). by apply IH.
  Qed.
  Lemma if_convert_total r : good r -> plain r -> is_Some (if_convert r).
  Proof.
    induction 1 as [[A l res] Hr Hb IH]. intros Hp. inversion Hp as [r Hn Hpb E]. subst r. clear Hp. cbn [rnodes] in *. rewrite if_convert_eq.
    assert (H : exists l', mapM convert_body l = Some l' /\ Forall2 body_same l l' /\ forall n, n ∈ l' -> plain_node n).
    { clear Hr. induction l as [|n l IHl]; [exists []; split; [done|]; split; [constructor|]; intros n Hin; by apply elem_of_nil in Hin|].
      destruct IHl as (l' & F1 & F2 & F3); [intros b ins outs H; apply (Hb b ins outs); by right | intros b ins outs H; apply (IH b ins outs); by right | intros m H; apply Hn; by right | intros b ins outs H; apply (Hpb b ins outs); by right |].
      cbn [mapM]. destruct n as [k ins outs]. pose proof (Hn _ ltac:(by left)) as Hpn. destruct k as [o|subs|b]; cbn [convert_body mbind option_bind].
      - rewrite F1. eexists. split; [reflexivity|]. split; [constructor; [split; [done|]; split; [done|]; by left | done]|]. intros m Hm. apply elem_of_cons in Hm as [->|Hm]; [done | by apply F3].
      - rewrite F1. eexists. split; [reflexivity|]. split; [constructor; [split; [done|]; split; [done|]; by left | done]|]. intros m Hm. apply elem_of_cons in Hm as [->|Hm]; [done | by apply F3].
      - assert (Hin : Node (KTheta b) ins outs ∈ Node (KTheta b) ins outs :: l) by (by left). destruct (IH b ins outs Hin (Hpb b ins outs Hin)) as [b' Eb]. rewrite Eb. cbn [mbind option_bind]. rewrite F1. eexists. split; [reflexivity|]. split.
        + constructor; [|done]. split; [done|]. split; [done|]. right. exists b, b'. split; [done|]. split; [done|]. by apply if_convert_ok; [eapply Hb|].
        + intros m Hm. apply elem_of_cons in Hm as [->|Hm]; [done | by apply F3]. }
    destruct H as (l' & F1 & F2 & F3). rewrite F1. cbn [mbind option_bind]. apply steps_total; [by eapply bodies_good | done].
  Qed.
End Pass.
