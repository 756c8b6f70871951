(** One node is pulled into a gamma node. *)
From stdpp Require Import base list gmap.
From Coq Require Import ZArith Lia.
From Verif.LocalRegion Require Import Model Spec Facts.
From Verif.Unswitch Require Import Model Spec Proofs1 Proofs3 Proofs4 Proofs5.
From Verif.Sinking Require Import Model Spec.
Open Scope nat_scope.

(** the node n can be pulled into the gamma node G; rest: the other nodes *)
Definition pullable (r : region) (n G : node) (rest : list node) : Prop :=
  exists subs q es outs, G = Node (KGamma subs) (q :: es) outs /\ rnodes r ≡ₚ G :: n :: rest /\ (exists x, x ∈ nouts n /\ x ∈ es) /\ q ∉ nouts n /\ forall x, x ∈ nouts n -> x ∉ rres r /\ forall m, m ∈ rest -> x ∉ nins m.
Section Step.
  Context (other : nat -> list val -> option (list val)) (content : val -> val).
  Local Notation holds := (holds other content).
  Local Notation hold := (hold other content).
  Local Notation runs := (runs other content).
  Local Notation same := (same other content).
  Lemma pull_step A nodes res n G rest nodes' : let r := Region A nodes res in
    good_region r -> pullable r n G rest -> nodes' ≡ₚ pull_node n G :: rest -> let r' := Region A nodes' res in good_region r' /\ same r r'.
  Proof.
    intros r ((Hn & Hu & Hr) & (rank & Rk1 & Rk2) & Hwg) (subs & p & es & outs & EG & P1 & (x0 & Hx0n & Hx0) & Hpn & Hsucc) P2 r'. unfold r in *. cbn [rnodes rres rargs] in *.
    set (G' := pull_node n G) in *. assert (EG' : G' = Node (KGamma (map (pull_into es n) subs)) (p :: filter (fun x => x ∉ nouts n) es ++ nins n) outs) by (unfold G'; by rewrite EG).
    assert (HGin : G ∈ nodes) by (rewrite P1; by left). assert (Hnin : n ∈ nodes) by (rewrite P1; right; by left).
    assert (Hno : NoDup (all_outs nodes)) by (unfold names in Hn; cbn [rargs rnodes] in Hn; by apply NoDup_app in Hn as (_ & _ & Hn)).
    assert (Hnn : NoDup (nouts n)). { rewrite (all_outs_perm _ _ P1), !all_outs_cons in Hno. apply NoDup_app in Hno as (_ & _ & Hno). by apply NoDup_app in Hno as (Hno & _). }
    assert (HGn : wf_gamma (Node (KGamma subs) (p :: es) outs)) by (rewrite <-EG; by apply Hwg).
    assert (Hself : forall x, x ∈ nins n -> x ∉ nouts n). { intros x Hx Hc. assert (rank x < rank x); [|lia]. by eapply Rk1. }
    assert (Hnames : names (Region A nodes res) ≡ₚ nouts n ++ names r').
    { unfold names, r'. cbn [rargs rnodes]. rewrite (all_outs_perm _ _ P1), (all_outs_perm _ _ P2), !all_outs_cons, EG, EG'. cbn [nouts]. rewrite (assoc_L (++) A outs), (assoc_L (++) (A ++ outs) (nouts n)), (comm (++) (A ++ outs) (nouts n)). by rewrite <-!(assoc_L (++)). }
    assert (Hnn' : NoDup (nouts n ++ names r')) by (by rewrite <-Hnames). apply NoDup_app in Hnn' as (_ & Hdis & Hn').
    assert (Hin' : forall x, x ∈ names (Region A nodes res) -> x ∉ nouts n -> x ∈ names r'). { intros x Hx Hnx. rewrite Hnames in Hx. apply elem_of_app in Hx as [?|?]; done. }
    assert (Hrin : forall m, m ∈ rest -> m ∈ nodes) by (intros m' Hm'; rewrite P1; right; by right).
    split.
    - split; [|split].
      + split; [done|]. split.
        * intros m' x Hm' Hx. unfold r' in Hm'. cbn [rnodes] in Hm'. rewrite P2 in Hm'. apply elem_of_cons in Hm' as [->|Hm'].
          -- rewrite EG' in Hx. cbn [nins] in Hx. rewrite elem_of_cons, elem_of_app in Hx. destruct Hx as [->|[Hx|Hx]].
             ++ apply Hin'; [|done]. apply (Hu G); [done | rewrite EG; by left].
             ++ apply elem_of_list_filter in Hx as [H1 H2]. apply Hin'; [|done]. apply (Hu G); [done | rewrite EG; by right].
             ++ apply Hin'; [by apply (Hu n) | by apply Hself].
          -- apply Hin'; [apply (Hu m'); [by apply Hrin | done]|]. intros Hc. by apply (proj2 (Hsucc x Hc) m').
        * intros x Hx. apply Hin'; [by apply Hr|]. intros Hc. by apply (proj1 (Hsucc x Hc)).
      + exists rank. unfold r'. cbn [rnodes rargs]. split.
        * intros m' x y Hm' Hx Hy. rewrite P2 in Hm'. apply elem_of_cons in Hm' as [->|Hm']; [|apply (Rk1 m'); [by apply Hrin | done | done]].
          rewrite EG' in Hx, Hy. cbn [nins nouts] in Hx, Hy. rewrite elem_of_cons, elem_of_app in Hx. destruct Hx as [->|[Hx|Hx]].
          -- apply (Rk1 G); [done | rewrite EG; by left | by rewrite EG].
          -- apply elem_of_list_filter in Hx as [_ Hx]. apply (Rk1 G); [done | rewrite EG; by right | by rewrite EG].
          -- assert (rank x < rank x0) by (by apply (Rk1 n)). assert (rank x0 < rank y); [|lia]. apply (Rk1 G); [done | rewrite EG; by right | by rewrite EG].
        * intros a m' y Ha Hm' Hy. rewrite P2 in Hm'. apply elem_of_cons in Hm' as [->|Hm']; [|apply (Rk2 a m'); [done | by apply Hrin | done]]. rewrite EG' in Hy. cbn [nouts] in Hy. apply (Rk2 a G); [done|done|by rewrite EG].
      + intros m' Hm'. unfold r' in Hm'. cbn [rnodes] in Hm'. rewrite P2 in Hm'. apply elem_of_cons in Hm' as [->|Hm']; [unfold G'; rewrite EG; by eapply pull_wf|]. by apply Hwg, Hrin.
    - intros vs ws. rewrite !runs_iff. unfold r'. cbn [rargs rnodes rres]. split.
      + intros (rho & E1 & Hh & E2). exists rho. split; [done|]. split; [|done]. rewrite (hold_perm _ _ _ _ _ P1), !hold_cons in Hh. destruct Hh as (H1 & H2 & H3). rewrite (hold_perm _ _ _ _ _ P2), hold_cons. split; [|done]. unfold G'. rewrite EG in *. by apply pull_holds.
      + intros (rho & E1 & Hh & E2). rewrite (hold_perm _ _ _ _ _ P2), hold_cons in Hh. destruct Hh as (H1 & H2).
        assert (Hout : forall m' y, m' ∈ G :: rest -> y ∈ nouts m' -> y ∉ nouts n).
        { intros m' y Hm' Hy Hc. apply (Hdis y Hc). unfold names, r'. cbn [rargs rnodes]. rewrite elem_of_app, elem_all_outs. right. apply elem_of_cons in Hm' as [->|Hm']; [exists G' | exists m']; rewrite P2; (split; [|try done]); [by left | rewrite EG'; rewrite EG in Hy; done | by right]. }
        unfold G' in H1. rewrite EG in H1. destruct (pull_holds_inv other content n subs p es outs rho HGn Hnn H1 Hpn) as (rho' & R1 & R2 & R3).
        { intros x [Hx|Hx]%elem_of_app; [apply (Hout G); [by left | by rewrite EG] | by apply Hself]. }
        assert (M : forall l, (forall x, x ∈ l -> x ∉ nouts n) -> map rho' l = map rho l). { intros l H. apply map_ext_in. intros x Hx%elem_of_list_In. apply R1. auto. }
        exists rho'. split; [|split].
        * rewrite M; [done|]. intros x Hx Hc. apply (Hdis x Hc). unfold names, r'. cbn [rargs]. apply elem_of_app. by left.
        * rewrite (hold_perm _ _ _ _ _ P1), !hold_cons. rewrite EG. split; [done|]. split; [done|]. eapply hold_ext; [|exact H2]. intros m' y Hm' Hy. symmetry. apply R1. apply elem_of_app in Hy as [Hy|Hy]; [intros Hc; by apply (proj2 (Hsucc y Hc) m') | apply (Hout m'); [by right | done]].
        * rewrite M; [done|]. intros x Hx Hc. by apply (proj1 (Hsucc x Hc)).
  Qed.
  (** the subregions stay well-formed *)
  Lemma pull_into_good es n r : good_region r -> length (rargs r) = S (length es) -> NoDup (nouts n) -> wf_gamma n -> good_region (pull_into es n r).
  Proof.
    intros (Hw & (rank & Rk1 & Rk2) & Hwg) Hl Hno Hwn. destruct (rargs r) as [|a0 as_] eqn:Ea; [done|]. cbn in Hl. injection Hl as Hl.
    destruct (pull_into_wf other es n r a0 as_ Hw Ea Hl Hno) as (W & _). split; [done|]. pose proof (args_nodup r a0 as_ Hw Ea) as (Hn & Hd & Hb). set (b := region_bound r) in *. set (k := length (nins n)). rewrite (pull_shape es n r a0 as_ Ea Hl) in *. fold b k in W |- *.
    set (f := fun a : nat => match list_find (fun d : nat * nat => d.1 = a) (zip (tail (rargs r)) es) with Some (_, (_, x)) => match list_find (fun y => y = x) (nouts n) with Some (j, _) => nth j (seq (b + k) (length (nouts n))) 0 | None => a end | None => a end) in *.
    assert (Hf : forall x, x ∈ names r -> (x ∈ a0 :: as_ /\ (f x = x \/ b + k <= f x)) \/ (x ∈ all_outs (rnodes r) /\ f x = x)).
    { intros x Hx. unfold names in Hx. rewrite Ea in Hx. destruct (decide (x ∈ as_)) as [Hin|Hout].
      - left. split; [by right|]. apply elem_of_list_lookup in Hin as [i Hi]. destruct (lookup_lt_is_Some_2 es i) as [y Hy]; [rewrite <-Hl; by eapply lookup_lt_Some|]. destruct (f_arg es n r a0 as_ Hw Ea Hl i x y Hi Hy) as [[_ E]|(j & _ & E)]; [left; exact E | right; fold b k in E; change (f x = b + k + j) in E; lia].
      - pose proof (f_out es n r a0 as_ Ea x Hout) as E. fold b k in E. apply elem_of_app in Hx as [Hx|Hx]; [left; split; [done | by left] | by right]. }
    split.
    - set (h := fun y => if decide (y ∈ a0 :: as_) then 0 else if decide (y < b) then rank y + 2 else if decide (y < b + k) then 0 else 1). exists h.
      assert (RO : forall y, y ∈ all_outs (rnodes r) -> h y = rank y + 2).
      { intros y Hy. unfold h. rewrite decide_False by (intros Hc; exact (Hd y Hc Hy)). rewrite decide_True; [done|]. apply Hb. unfold names. apply elem_of_app. by right. }
      assert (RA : forall y, y ∈ a0 :: as_ -> h y = 0) by (intros y Hy; unfold h; by rewrite decide_True).
      assert (RN : forall y, b <= y -> y ∉ a0 :: as_). { intros y Hy Hc. assert (y < b); [|lia]. apply Hb. unfold names. rewrite Ea. apply elem_of_app. by left. }
      assert (R0 : forall y, b <= y < b + k -> h y = 0). { intros y Hy. unfold h. rewrite decide_False by (apply RN; lia). rewrite decide_False by lia. by rewrite decide_True by lia. }
      assert (R1 : forall y, b + k <= y -> h y = 1). { intros y Hy. unfold h. rewrite decide_False by (apply RN; lia). rewrite decide_False by lia. by rewrite decide_False by lia. }
      cbn [rnodes rargs]. split.
      + intros m x y Hm Hx Hy. apply elem_of_cons in Hm as [->|Hm].
        * cbn [nins nouts] in Hx, Hy. apply elem_of_seq in Hx, Hy. rewrite R0, R1 by lia. lia.
        * apply elem_of_list_fmap in Hm as (m0 & -> & Hm). cbn [divert_node nins nouts] in Hx, Hy. apply elem_of_list_fmap in Hx as (z & -> & Hz). assert (Hyo : y ∈ all_outs (rnodes r)) by (apply elem_all_outs; by exists m0). rewrite (RO y Hyo).
          destruct Hw as (_ & Hu & _). destruct (Hf z (Hu _ _ Hm Hz)) as [[Ha [E|E]]|[Ho E]].
          -- rewrite E. rewrite (RA z Ha). lia.
          -- rewrite R1 by exact E. lia.
          -- rewrite E. rewrite (RO z Ho). pose proof (Rk1 m0 z y Hm Hz Hy). lia.
      + intros a m y Ha Hm Hy. assert (Ha0 : h a = 0).
        { apply elem_of_cons in Ha as [->|Ha]; [apply RA; by left|]. apply elem_of_app in Ha as [Ha|Ha].
          - apply RA. right. eapply elem_of_submseteq; [exact Ha|]. apply sublist_submseteq. apply zip_sublist.
          - apply elem_of_seq in Ha. apply R0. lia. }
        rewrite Ha0. apply elem_of_cons in Hm as [->|Hm].
        * cbn [nouts] in Hy. apply elem_of_seq in Hy. rewrite R1 by lia. lia.
        * apply elem_of_list_fmap in Hm as (m0 & -> & Hm). cbn [divert_node nouts] in Hy. rewrite RO by (apply elem_all_outs; by exists m0). lia.
    - intros m Hm. cbn [rnodes] in Hm. apply elem_of_cons in Hm as [->|Hm].
      + unfold wf_gamma in *. cbn [nkind nins nouts]. destruct (nkind n) as [|ss|]; [done| |done]. rewrite !seq_length. exact Hwn.
      + apply elem_of_list_fmap in Hm as (m0 & -> & Hm). specialize (Hwg m0 Hm). unfold wf_gamma in *. cbn [divert_node nkind nins nouts]. destruct (nkind m0) as [|ss|]; [done| |done]. by rewrite map_length.
  Qed.
End Step.
