(** Predicate correlations. *)
From stdpp Require Import base list gmap.
From Coq Require Import ZArith Lia.
From Verif.LocalRegion Require Import Model Spec Facts.
From Verif.Unswitch Require Import Model Spec Proofs1 Proofs2 Proofs3 Proofs5.

Lemma owner_ok l x n : owner l x = Some n -> n ∈ l /\ x ∈ nouts n.
Proof. unfold owner. destruct (list_find _ l) as [[i m]|] eqn:E; [|done]. cbn. intros [= ->]. apply list_find_Some in E as (E & Hx & _). split; [by eapply elem_of_list_lookup_2 | done]. Qed.
Section Corr.
  Context (other : nat -> list val -> option (list val)) (content : val -> val).
  Local Notation holds := (holds other content).
  Local Notation hold := (hold other content).
  Local Notation runs := (runs other content).
  Lemma one_out (rho : nat -> val) (outs : list nat) x v : map rho outs = [v] -> x ∈ outs -> rho x = v.
  Proof. destruct outs as [|y [|]]; try done. cbn. intros [= H] Hx. by apply elem_of_list_singleton in Hx as ->. Qed.
  Lemma constant_value r y z rho : constant_of r y = Some z -> hold rho (rnodes r) -> (exists k, z = Z.of_nat k /\ rho y = VCtl k) \/ exists w, rho y = VInt w z.
  Proof.
    unfold constant_of. destruct (owner (rnodes r) y) as [n|] eqn:E; [|done]. cbn [mbind option_bind]. apply owner_ok in E as [Hn Hy]. intros H Hh. specialize (Hh n Hn). unfold Spec.holds in Hh. destruct (nkind n) as [[k|w v| | | | |]| |]; try done; injection H as <-; inversion Hh as [o vs ws Ho E1 E2| |]; subst; destruct (map rho (nins n)); try done; cbn in Ho; injection Ho as Ho.
    - left. exists k. split; [done|]. by eapply one_out.
    - right. exists w. by eapply one_out.
  Qed.
  (** the value of a gamma node's output with constants *)
  Lemma extract_value g x alts rho : extract_constants g x = Some alts -> holds rho g -> NoDup (nouts g) -> wf_gamma g -> exists q k z, head (nins g) = Some q /\ rho q = VCtl k /\ alts !! k = Some z /\ ((exists j, z = Z.of_nat j /\ rho x = VCtl j) \/ exists w, rho x = VInt w z).
  Proof.
    intros He Hh Hno Hw. unfold extract_constants in He. unfold Spec.holds in Hh. unfold wf_gamma in Hw. destruct (nkind g) as [|subs|] eqn:Ek; try done. destruct Hw as [H0 Hw]. destruct (list_find (fun y => y = x) (nouts g)) as [[j y]|] eqn:Ef; [|done]. cbn [mbind option_bind fst] in He. apply list_find_Some in Ef as (Ef & -> & _).
    apply gamma_inv in Hh as (k & r & vs0 & E & Hk & Hr). destruct (nins g) as [|q es]; [done|]. cbn [map] in E. injection E as Eq E. exists q, k. apply mapM_Some in He. destruct (Forall2_lookup_l _ _ _ _ _ He Hk) as (z & Hz & Hc). exists z. split; [done|]. split; [done|]. split; [done|].
    destruct (rres r !! j) as [y|] eqn:Ey; [|done]. cbn [mbind option_bind] in Hc. apply runs_iff in Hr as (rho1 & _ & Hh & E2). pose proof (constant_value _ _ _ _ Hc Hh) as Hv.
    assert (Ev : rho x = rho1 y). { assert (E3 : map rho1 (rres r) !! j = map rho (nouts g) !! j) by (by rewrite E2). change (map ?f ?m) with (f <$> m) in E3. rewrite !list_lookup_fmap, Ef, Ey in E3. cbn in E3. congruence. }
    by rewrite Ev.
  Qed.
  Lemma alternative_same m d z : alternative_of m d z = alternative m d z.
  Proof. done. Qed.
  (** what a correlation says about the predicate p of the loop and the predicate q of the gamma node, for all values of the nodes *)
  Definition correlated (c : correlation) (k : nat) (v : val) : Prop :=
    match c with
    | ControlConstant _ alts => exists z, alts !! k = Some z /\ ((exists j, z = Z.of_nat j /\ v = VCtl j) \/ exists w, v = VInt w z)
    | MatchConstant _ m d alts => exists z, alts !! k = Some z /\ v = VCtl (alternative m d z)
    | MatchCorrelation _ => True
    end.
  Lemma correlate_sound body c rho p : wf_body body -> correlate body = Some c -> hold rho (rnodes body) -> head (rres body) = Some p ->
    exists g, rnodes body !! corr_gamma c = Some g /\ is_gamma g = true /\ exists q k, head (nins g) = Some q /\ rho q = VCtl k /\ correlated c k (rho p).
  Proof.
    intros ((Hn & _) & _ & Hwg & _) Hc Hh Hp. assert (Hno : NoDup (all_outs (rnodes body))) by (by apply NoDup_app in Hn as (_ & _ & Hn)).
    assert (Hnd : forall i g, rnodes body !! i = Some g -> NoDup (nouts g)). { intros i g Hg. rewrite (all_outs_perm _ _ (delete_Permutation _ _ _ Hg)), all_outs_cons in Hno. by apply NoDup_app in Hno as (Hno & _). }
    unfold correlate in Hc. destruct (control_constant body) as [c'|] eqn:E1; [injection Hc as ->|destruct (match_constant body) as [c'|] eqn:E2; [injection Hc as ->|rename Hc into E3]].
    - unfold control_constant in E1. rewrite Hp in E1. cbn [mbind option_bind] in E1. destruct (owner_index (rnodes body) p) as [i|] eqn:Ei; [|done]. cbn [mbind option_bind] in E1. destruct (rnodes body !! i) as [g|] eqn:Eg; [|done]. cbn [mbind option_bind] in E1. destruct (is_gamma g) eqn:Egg; [|done].
      destruct (extract_constants g p) as [alts|] eqn:Ea; [|done]. cbn in E1. injection E1 as <-. cbn [corr_gamma]. exists g. split; [done|]. split; [done|]. pose proof (elem_of_list_lookup_2 _ _ _ Eg) as Hin. destruct (extract_value g p alts rho Ea (Hh g Hin) (Hnd _ _ Eg) (Hwg g Hin)) as (q & k & z & A1 & A2 & A3 & A4). exists q, k. split; [done|]. split; [done|]. by exists z.
    - unfold match_constant in E2. rewrite Hp in E2. cbn [mbind option_bind] in E2. destruct (owner (rnodes body) p) as [m|] eqn:Em; [|done]. cbn [mbind option_bind] in E2. destruct (nkind m) as [[| |w mp d| | | |]| |] eqn:Ek; try done. destruct (head (nins m)) as [x|] eqn:Ex; [|done]. cbn [mbind option_bind] in E2.
      destruct (owner_index (rnodes body) x) as [i|] eqn:Ei; [|done]. cbn [mbind option_bind] in E2. destruct (rnodes body !! i) as [g|] eqn:Eg; [|done]. cbn [mbind option_bind] in E2. destruct (is_gamma g) eqn:Egg; [|done]. destruct (extract_constants g x) as [alts|] eqn:Ea; [|done]. cbn in E2. injection E2 as <-. cbn [corr_gamma].
      exists g. split; [done|]. split; [done|]. pose proof (elem_of_list_lookup_2 _ _ _ Eg) as Hin. destruct (extract_value g x alts rho Ea (Hh g Hin) (Hnd _ _ Eg) (Hwg g Hin)) as (q & k & z & A1 & A2 & A3 & A4). exists q, k. split; [done|]. split; [done|]. exists z. split; [done|].
      apply owner_ok in Em as [Hm Hpm]. specialize (Hh m Hm). unfold Spec.holds in Hh. rewrite Ek in Hh. inversion Hh as [o vs ws Ho F1 F2| |]; subst. destruct (nins m) as [|x' l]; [done|]. cbn in Ex. injection Ex as ->. cbn [map] in Ho. destruct A4 as [(j & -> & Hj)|(w' & Hj)]; rewrite Hj in Ho; cbn in Ho; [done|].
      destruct l; cbn in Ho; [|done]. destruct (decide (w' = w /\ (0 <= z < 2 ^ w)%Z)); [|done]. injection Ho as Ho. by eapply one_out.
    - unfold match_correlation in E3. rewrite Hp in E3. cbn [mbind option_bind] in E3. destruct (owner (rnodes body) p) as [m|] eqn:Em; [|done]. cbn [mbind option_bind] in E3. destruct (is_match m); [|done]. destruct (list_find _ (node_uses body p)) as [[a [i j]]|] eqn:Ef; [|done]. cbn in E3. injection E3 as <-. cbn [corr_gamma]. apply list_find_Some in Ef as (_ & Hg & _). cbn [fst] in Hg.
      destruct (rnodes body !! i) as [g|] eqn:Eg; [|done]. cbn in Hg. injection Hg as Hg. exists g. split; [done|]. split; [done|]. pose proof (elem_of_list_lookup_2 _ _ _ Eg) as Hin. specialize (Hh g Hin). unfold Spec.holds in Hh. destruct g as [[|subs|] ins outs]; try done. cbn [nkind nins nouts] in *. apply gamma_inv in Hh as (k & r & vs0 & E & _). destruct ins as [|q es]; [done|]. cbn [map] in E. injection E as E _. by exists q, k.
  Qed.
  Definition typed (body : region) : Prop := forall vs v ws, runs body vs (v :: ws) -> exists k, v = VCtl k.
  Lemma redirect_step body body' : wf_body body -> typed body -> redirect body = Some body' ->
    same other content body body' /\ rargs body' = rargs body /\ rnodes body' = rnodes body /\ tail (rres body') = tail (rres body) /\ wf_body body' /\ exists p p', head (rres body) = Some p /\ head (rres body') = Some p' /\
      forall rank : nat -> nat, (forall n x y, n ∈ rnodes body -> x ∈ nins n -> y ∈ nouts n -> rank x < rank y)%nat -> (rank p' < rank p)%nat.
  Proof.
    intros Hw Ht Hr. destruct (head (rres body)) as [p|] eqn:Hp; [|by destruct Hw as (_ & _ & _ & H); destruct (rres body)].
    assert (Hmain : exists c g, correlate body = Some c /\ rnodes body !! corr_gamma c = Some g /\ take_predicate body (corr_gamma c) = Some body' /\ (forall rho k q, hold rho (rnodes body) -> head (nins g) = Some q -> rho q = VCtl k -> correlated c k (rho p) -> rho p = VCtl k) /\
      forall q rank, head (nins g) = Some q -> (forall n x y, n ∈ rnodes body -> x ∈ nins n -> y ∈ nouts n -> rank x < rank y)%nat -> (rank q < rank p)%nat).
    { unfold redirect in Hr. destruct (correlate body) as [[i alts|i m d alts|]|] eqn:Ec; try done.
      - destruct (decide (alts = [0; 1]%Z)) as [->|]; [|done]. unfold take_predicate in Hr. destruct (rnodes body !! i) as [g|] eqn:Eg; [|done]. exists (ControlConstant i [0; 1]%Z), g. split; [done|]. cbn [corr_gamma]. split; [done|]. split; [unfold take_predicate; by rewrite Eg|]. split.
        + intros rho k q Hh _ _ (z & Hz & Hv). assert (Hvk : exists j, rho p = VCtl j). { destruct (rres body) as [|p0 posts] eqn:Er; [done|]. cbn in Hp. injection Hp as ->. destruct (Ht (map rho (rargs body)) (rho p) (map rho posts)) as [j Hj]; [|by exists j]. apply runs_iff. exists rho. by rewrite Er. }
          destruct Hvk as [j0 Hj0]. destruct Hv as [(j & -> & Hj)|(w & Hj)]; [|congruence]. destruct k as [|[|k]]; cbn in Hz; [| |done]; injection Hz as Hz; rewrite Hj; f_equal; lia.
        + intros q rank Hq Hrk. unfold correlate in Ec. destruct (control_constant body) as [c|] eqn:E1; [injection Ec as ->|].
          * unfold control_constant in E1. rewrite Hp in E1. cbn [mbind option_bind] in E1. destruct (owner_index (rnodes body) p) as [i'|] eqn:Ei; [|done]. cbn [mbind option_bind] in E1. destruct (rnodes body !! i') as [g'|] eqn:Eg'; [|done]. cbn [mbind option_bind] in E1. destruct (if is_gamma g' then _ else _); [|done]. cbn in E1. injection E1 as -> ->.
            rewrite Eg in Eg'. injection Eg' as <-. apply owner_index_ok in Ei as (n & Hn & Hx). rewrite Eg in Hn. injection Hn as <-. apply (Hrk g); [by eapply elem_of_list_lookup_2| |done]. destruct (nins g); [done|]. cbn in Hq. injection Hq as ->. by left.
          * destruct (match_constant body) as [c|] eqn:E2; [injection Ec as ->|].
            -- unfold match_constant in E2. rewrite Hp in E2. cbn [mbind option_bind] in E2. destruct (owner _ p); [|done]. cbn [mbind option_bind] in E2. destruct (nkind _) as [[]| |]; try done. destruct (head _); [|done]. cbn [mbind option_bind] in E2. destruct (owner_index _ _); [|done]. cbn [mbind option_bind] in E2. destruct (rnodes body !! _); [|done]. cbn [mbind option_bind] in E2. destruct (if is_gamma _ then _ else _); [|done]. done.
            -- unfold match_correlation in Ec. rewrite Hp in Ec. cbn [mbind option_bind] in Ec. destruct (owner _ p); [|done]. cbn [mbind option_bind] in Ec. destruct (is_match _); [|done]. destruct (list_find _ _); [|done]. done.
      - destruct alts as [|a [|b [|]]]; try done. destruct (decide _) as [[H0 H1]|]; [|done]. unfold take_predicate in Hr. destruct (rnodes body !! i) as [g|] eqn:Eg; [|done]. exists (MatchConstant i m d [a; b]), g. split; [done|]. cbn [corr_gamma]. split; [done|]. split; [unfold take_predicate; by rewrite Eg|]. split.
        + intros rho k q Hh _ _ (z & Hz & ->). f_equal. rewrite <-alternative_same. destruct k as [|[|k]]; cbn in Hz; [| |done]; injection Hz as <-; done.
        + intros q rank Hq Hrk. unfold correlate in Ec. destruct (control_constant body) as [c|] eqn:E1; [injection Ec as ->|].
          * unfold control_constant in E1. rewrite Hp in E1. cbn [mbind option_bind] in E1. destruct (owner_index (rnodes body) p) as [i'|] eqn:Ei; [|done]. cbn [mbind option_bind] in E1. destruct (rnodes body !! i') as [g'|] eqn:Eg'; [|done]. cbn [mbind option_bind] in E1. destruct (if is_gamma g' then _ else _); [|done]. done.
          * destruct (match_constant body) as [c|] eqn:E2; [injection Ec as ->|].
            -- unfold match_constant in E2. rewrite Hp in E2. cbn [mbind option_bind] in E2. destruct (owner (rnodes body) p) as [mn|] eqn:Em; [|done]. cbn [mbind option_bind] in E2. destruct (nkind mn) as [[| |w mp d'| | | |]| |] eqn:Ek; try done. destruct (head (nins mn)) as [x|] eqn:Ex; [|done]. cbn [mbind option_bind] in E2.
               destruct (owner_index (rnodes body) x) as [i'|] eqn:Ei; [|done]. cbn [mbind option_bind] in E2. destruct (rnodes body !! i') as [g'|] eqn:Eg'; [|done]. cbn [mbind option_bind] in E2. destruct (if is_gamma g' then _ else _); [|done]. cbn in E2. injection E2 as -> -> -> ->. rewrite Eg in Eg'. injection Eg' as <-.
               apply owner_ok in Em as [Hm Hpm]. apply owner_index_ok in Ei as (n & Hn & Hx). rewrite Eg in Hn. injection Hn as <-.
               assert (A1 : (rank x < rank p)%nat). { apply (Hrk mn); [done| |done]. destruct (nins mn); [done|]. cbn in Ex. injection Ex as ->. by left. }
               assert (A2 : (rank q < rank x)%nat). { apply (Hrk g); [by eapply elem_of_list_lookup_2| |done]. destruct (nins g); [done|]. cbn in Hq. injection Hq as ->. by left. } lia.
            -- unfold match_correlation in Ec. rewrite Hp in Ec. cbn [mbind option_bind] in Ec. destruct (owner _ p); [|done]. cbn [mbind option_bind] in Ec. destruct (is_match _); [|done]. destruct (list_find _ _); [|done]. done. }
    destruct Hmain as (c & g & Ec & Eg & Etp & Hval & Hrank). unfold take_predicate in Etp. rewrite Eg in Etp. cbn [mbind option_bind] in Etp. destruct (head (nins g)) as [q|] eqn:Eq; [|done]. cbn in Etp. injection Etp as <-.
    assert (Heq : forall rho, hold rho (rnodes body) -> rho q = rho p). { intros rho Hh. destruct (correlate_sound body c rho p Hw Ec Hh Hp) as (g' & Hg' & _ & q' & k & Hq' & Hqk & Hc). rewrite Eg in Hg'. injection Hg' as <-. rewrite Eq in Hq'. injection Hq' as <-. rewrite Hqk. symmetry. by eapply Hval. }
    destruct (rres body) as [|p0 posts] eqn:Er; [done|]. cbn in Hp. injection Hp as ->. cbn [tail rargs rnodes rres]. split; [|split; [done|split; [done|split; [done|split]]]].
    - intros vs ws. rewrite !runs_iff. cbn [rargs rnodes rres]. rewrite Er. split; intros (rho & E1 & Hh & E2); exists rho; (split; [done|]); (split; [done|]); cbn [map] in *; rewrite <-E2; f_equal; [|symmetry]; by apply Heq.
    - destruct Hw as ((Hn & Hu & Hr') & Ha & Hwg & Hlen). split; [|split; [|split]].
      + split; [done|]. split; [done|]. intros x Hx. cbn [rres] in Hx. apply elem_of_cons in Hx as [->|Hx]; [|apply Hr'; rewrite Er; by right]. apply (Hu g); [by eapply elem_of_list_lookup_2|]. destruct (nins g); [done|]. cbn in Eq. injection Eq as ->. by left.
      + done.
      + done.
      + cbn [rres rargs length]. rewrite Er in Hlen. done.
    - exists p, q. split; [done|]. split; [done|]. intros rank. by apply Hrank.
  Qed.
  Lemma typed_same b b' : same other content b b' -> typed b -> typed b'.
  Proof. intros H Ht vs v ws Hr. eapply Ht. by apply H. Qed.
  Lemma correlate_theta_same fuel : forall body, wf_body body -> typed body -> same other content body (correlate_theta fuel body).
  Proof.
    induction fuel as [|fuel IH]; intros body Hw Ht; cbn [correlate_theta]; [done|]. destruct (redirect body) as [b|] eqn:E; [|done]. destruct (redirect_step _ _ Hw Ht E) as (H1 & _ & _ & _ & H2 & _). eapply same_trans; [exact H1|]. apply IH; [done|]. by eapply typed_same.
  Qed.
  Lemma correlate_theta_stops body : wf_body body -> typed body -> exists fuel, redirect (correlate_theta fuel body) = None.
  Proof.
    intros Hw Ht. pose proof Hw as (_ & (rank & Rk & _) & _). destruct (head (rres body)) as [p|] eqn:Hp; [|by destruct Hw as (_ & _ & _ & H); destruct (rres body)]. remember (rank p) as n eqn:En. revert body p Hw Ht Hp Rk En.
    induction n as [n IH] using lt_wf_ind. intros body p Hw Ht Hp Rk ->. destruct (redirect body) as [b|] eqn:E; [|by exists 0%nat]. destruct (redirect_step _ _ Hw Ht E) as (H1 & _ & H3 & _ & H2 & p0 & p' & Hp0 & Hp' & Hrk). rewrite Hp in Hp0. injection Hp0 as <-.
    destruct (IH (rank p') (Hrk rank Rk) b p' H2 (typed_same _ _ H1 Ht) Hp') as [fuel Hf]; [by rewrite H3 | done|]. exists (S fuel). cbn [correlate_theta]. by rewrite E.
  Qed.
End Corr.
