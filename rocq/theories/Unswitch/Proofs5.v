(** Sinking keeps what the body computes; the whole transformation. *)
From stdpp Require Import base list gmap.
From Coq Require Import ZArith Lia.
From Verif.LocalRegion Require Import Model Spec Facts.
From Verif.Unswitch Require Import Model Spec Proofs1 Proofs2 Proofs3 Proofs4.

Lemma delete_insert_same {A} (l : list A) : forall g x, delete g (<[g := x]> l) = delete g l.
Proof. induction l as [|a l IH]; intros [|g] x; try done. cbn. f_equal. apply IH. Qed.
Lemma insert_perm {A} (l : list A) g x y : l !! g = Some x -> <[g := y]> l ≡ₚ y :: delete g l.
Proof. intros H. rewrite <-(delete_insert_same l g y). apply delete_Permutation. apply list_lookup_insert. by eapply lookup_lt_Some. Qed.
Lemma owner_index_ok l x i : owner_index l x = Some i -> exists n, l !! i = Some n /\ x ∈ nouts n.
Proof. unfold owner_index. destruct (list_find _ l) as [[j n]|] eqn:E; [|done]. cbn. intros [= <-]. apply list_find_Some in E as (E & Hx & _). by exists n. Qed.
Lemma owner_index_in l x i n : NoDup (all_outs l) -> l !! i = Some n -> x ∈ nouts n -> owner_index l x = Some i.
Proof.
  intros Hn Hi Hx. unfold owner_index. destruct (list_find (fun n => x ∈ nouts n) l) as [[j m]|] eqn:E.
  - cbn. f_equal. apply list_find_Some in E as (E & Hm & _). by eapply unique_owner.
  - exfalso. apply list_find_None in E. rewrite Forall_forall in E. apply (E n); [by eapply elem_of_list_lookup_2 | done].
Qed.
Lemma owner_in l x i n : NoDup (all_outs l) -> l !! i = Some n -> x ∈ nouts n -> owner l x = Some n.
Proof.
  intros Hn Hi Hx. unfold owner. destruct (list_find (fun n => x ∈ nouts n) l) as [[j m]|] eqn:E.
  - cbn. apply list_find_Some in E as (E & Hm & _). pose proof (unique_owner _ _ _ _ _ _ Hn Hi E Hx Hm) as ->. congruence.
  - exfalso. apply list_find_None in E. rewrite Forall_forall in E. apply (E n); [by eapply elem_of_list_lookup_2 | done].
Qed.
Lemma find_pullable_ok body g q es i : find_pullable body g q es = Some i -> exists x, x ∈ es /\ owner_index (rnodes body) x = Some i /\ owner_index (rnodes body) q <> Some i /\ single_successor body i g = true.
Proof.
  induction es as [|x es IH]; [done|]. cbn [find_pullable]. assert (Hrec : find_pullable body g q es = Some i -> exists y, y ∈ x :: es /\ owner_index (rnodes body) y = Some i /\ owner_index (rnodes body) q <> Some i /\ single_successor body i g = true).
  { intros H. destruct (IH H) as (y & Hy & H'). exists y. split; [by right | done]. }
  destruct (owner_index (rnodes body) x) as [j|] eqn:E; [|done]. destruct (negb _ && _) eqn:Eb; [|done]. intros [= ->]. apply andb_true_iff in Eb as [E1 E2]. exists x. split; [by left|]. split; [done|]. split; [|done]. apply negb_true_iff in E1. by apply bool_decide_eq_false in E1.
Qed.

(** what stays the same about the body: a match m that computes the predicate p, and a gamma node g with predicate p *)
Definition shape (body : region) (g : nat) (m : node) (p ns : nat) : Prop :=
  wf_body body /\ (exists subs es outs, rnodes body !! g = Some (Node (KGamma subs) (p :: es) outs) /\ length subs = ns) /\ m ∈ rnodes body /\ is_match m = true /\ p ∈ nouts m /\ head (rres body) = Some p.

Section Sink.
  Context (other : nat -> list val -> option (list val)) (content : val -> val).
  Local Notation holds := (holds other content).
  Local Notation hold := (hold other content).
  Local Notation runs := (runs other content).
  Lemma pull_step pre nodes res g i n m p ns subs es outs : let body := Region pre nodes res in
    shape body g m p ns -> nodes !! g = Some (Node (KGamma subs) (p :: es) outs) -> find_pullable body g p es = Some i -> nodes !! i = Some n ->
    let body' := Region pre (delete i (<[g := pull_node n (Node (KGamma subs) (p :: es) outs)]> nodes)) res in
    shape body' (if decide (i < g) then pred g else g) m p ns /\ same other content body body'.
  Proof.
    intros body (((Hn & Hu & Hr) & (rank & Rk1 & Rk2) & Hwg & Hlen) & (subs0 & es0 & outs0 & Hg0 & Hns) & Hm & Him & Hpm & Hhd) Hg Hf Hi body'. change (rnodes body) with nodes in *. change (rargs body) with pre in *. change (rres body) with res in *. rewrite Hg in Hg0. injection Hg0 as <- <- <-.
    set (G := Node (KGamma subs) (p :: es) outs) in *. set (G' := pull_node n G) in *.
    assert (EG' : G' = Node (KGamma (map (pull_into es n) subs)) (p :: filter (fun x => x ∉ nouts n) es ++ nins n) outs) by done.
    apply find_pullable_ok in Hf as (x0 & Hx0 & Hox & Hoq & Hss). change (rnodes body) with nodes in Hox, Hoq. apply owner_index_ok in Hox as (n' & Hi' & Hx0n). rewrite Hi in Hi'. injection Hi' as <-.
    assert (HGin : G ∈ nodes) by (by eapply elem_of_list_lookup_2). assert (Hnin : n ∈ nodes) by (by eapply elem_of_list_lookup_2).
    assert (Hig : i <> g). { intros ->. rewrite Hg in Hi. injection Hi as <-. assert (rank x0 < rank x0); [|lia]. apply (Rk1 G); [done | by right | done]. }
    assert (Hno : NoDup (all_outs nodes)) by (unfold names in Hn; cbn [rargs rnodes] in Hn; by apply NoDup_app in Hn as (_ & _ & Hn)).
    assert (Hnn : NoDup (nouts n)). { rewrite (all_outs_perm _ _ (delete_Permutation _ _ _ Hi)), all_outs_cons in Hno. by apply NoDup_app in Hno as (Hno & _). }
    assert (HGn : wf_gamma G) by (by apply Hwg).
    pose proof (delete_Permutation _ _ _ Hg) as P1. assert (Hnd : n ∈ delete g nodes). { rewrite P1 in Hnin. apply elem_of_cons in Hnin as [E|?]; [|done]. exfalso. rewrite E in Hx0n. assert (rank x0 < rank x0); [|lia]. apply (Rk1 G); [done | by right | done]. }
    apply elem_of_Permutation in Hnd as [rest Prest]. rewrite Prest in P1.
    assert (P2 : delete i (<[g := G']> nodes) ≡ₚ G' :: rest).
    { assert (Hi2 : <[g := G']> nodes !! i = Some n) by (by rewrite list_lookup_insert_ne by congruence). pose proof (delete_Permutation _ _ _ Hi2) as Q. pose proof (insert_perm _ _ _ G' Hg) as Q2. rewrite Prest, perm_swap in Q2. rewrite Q in Q2. by apply Permutation_cons_inv in Q2. }
    assert (Hrest : forall m, m ∈ rest -> exists j, j <> g /\ nodes !! j = Some m). { intros m' Hm'. apply (elem_delete nodes g). rewrite Prest. by right. }
    assert (Hsucc : forall x, x ∈ nouts n -> x ∉ res /\ forall m, m ∈ rest -> x ∉ nins m).
    { intros x Hx. unfold single_successor in Hss. change (rnodes body) with nodes in Hss. rewrite Hi in Hss. rewrite forallb_forall in Hss. specialize (Hss x (proj1 (elem_of_list_In _ _) Hx)). apply andb_true_iff in Hss as [S1 S2]. split; [apply bool_decide_eq_true in S1; by apply result_uses_0 in S1|].
      intros m' Hm' Hc. destruct (Hrest _ Hm') as (j & Hj & Hjm). apply Hj. exact (uses_sound body g x m' j Hjm Hc S2). }
    assert (Hpn : p ∉ nouts n). { intros Hc. apply Hoq. by eapply owner_index_in. }
    assert (Hself : forall x, x ∈ nins n -> x ∉ nouts n). { intros x Hx Hc. assert (rank x < rank x); [|lia]. by eapply Rk1. }
    assert (Hnames : names body ≡ₚ nouts n ++ names body').
    { unfold names, body, body'. cbn [rargs rnodes]. rewrite (all_outs_perm _ _ P1), (all_outs_perm _ _ P2), !all_outs_cons, EG'. cbn [nouts]. rewrite (assoc_L (++) pre outs), (assoc_L (++) (pre ++ outs) (nouts n)), (comm (++) (pre ++ outs) (nouts n)). by rewrite <-!(assoc_L (++)). }
    assert (Hnn' : NoDup (nouts n ++ names body')) by (by rewrite <-Hnames). apply NoDup_app in Hnn' as (_ & Hdis & Hn').
    assert (Hin' : forall x, x ∈ names body -> x ∉ nouts n -> x ∈ names body'). { intros x Hx Hnx. rewrite Hnames in Hx. apply elem_of_app in Hx as [?|?]; done. }
    assert (Hrin : forall m, m ∈ rest -> m ∈ nodes) by (intros m' Hm'; rewrite P1; right; by right).
    assert (Hmrest : m ∈ rest). { rewrite P1 in Hm. apply elem_of_cons in Hm as [E|Hm]; [rewrite E in Him; done|]. apply elem_of_cons in Hm as [E|Hm]; [rewrite E in Hpm; done | done]. }
    assert (Hlk : delete i (<[g := G']> nodes) !! (if decide (i < g) then pred g else g) = Some G').
    { assert (Hlt : g < length nodes) by (by eapply lookup_lt_Some). destruct (decide (i < g)) as [Hlt'|Hge].
      - rewrite lookup_delete_ge by lia. replace (S (pred g)) with g by lia. by apply list_lookup_insert.
      - rewrite lookup_delete_lt by lia. by apply list_lookup_insert. }
    split.
    - split; [|split; [|split; [|split; [done|split; [done|done]]]]].
      + split; [|split; [|split]].
        * split; [done|]. split.
          -- intros m' x Hm' Hx. unfold body' in Hm'. cbn [rnodes] in Hm'. rewrite P2 in Hm'. apply elem_of_cons in Hm' as [->|Hm'].
             ++ rewrite EG' in Hx. cbn [nins] in Hx. rewrite elem_of_cons, elem_of_app in Hx. destruct Hx as [->|[Hx|Hx]].
                ** apply Hin'; [|done]. apply (Hu G); [done | by left].
                ** apply elem_of_list_filter in Hx as [H1 H2]. apply Hin'; [|done]. apply (Hu G); [done | by right].
                ** apply Hin'; [by apply (Hu n) | by apply Hself].
             ++ apply Hin'; [apply (Hu m'); [by apply Hrin | done]|]. intros Hc. by apply (proj2 (Hsucc x Hc) m').
          -- intros x Hx. apply Hin'; [by apply Hr|]. intros Hc. by apply (proj1 (Hsucc x Hc)).
        * exists rank. unfold body'. cbn [rnodes rargs]. split.
          -- intros m' x y Hm' Hx Hy. rewrite P2 in Hm'. apply elem_of_cons in Hm' as [->|Hm']; [|apply (Rk1 m'); [by apply Hrin | done | done]].
             rewrite EG' in Hx, Hy. cbn [nins nouts] in Hx, Hy. rewrite elem_of_cons, elem_of_app in Hx. destruct Hx as [->|[Hx|Hx]].
             ++ apply (Rk1 G); [done | by left | done].
             ++ apply elem_of_list_filter in Hx as [_ Hx]. apply (Rk1 G); [done | by right | done].
             ++ assert (rank x < rank x0) by (by apply (Rk1 n)). assert (rank x0 < rank y); [|lia]. apply (Rk1 G); [done | by right | done].
          -- intros a m' y Ha Hm' Hy. rewrite P2 in Hm'. apply elem_of_cons in Hm' as [->|Hm']; [|apply (Rk2 a m'); [done | by apply Hrin | done]]. rewrite EG' in Hy. cbn [nouts] in Hy. by apply (Rk2 a G).
        * intros m' Hm'. unfold body' in Hm'. cbn [rnodes] in Hm'. rewrite P2 in Hm'. apply elem_of_cons in Hm' as [->|Hm']; [by eapply pull_wf|]. by apply Hwg, Hrin.
        * done.
      + exists (map (pull_into es n) subs), (filter (fun x => x ∉ nouts n) es ++ nins n), outs. split; [exact Hlk|]. by rewrite map_length.
      + unfold body'. cbn [rnodes]. rewrite P2. by right.
    - intros vs ws. rewrite !runs_iff. unfold body, body'. cbn [rargs rnodes rres]. split.
      + intros (rho & E1 & Hh & E2). exists rho. split; [done|]. split; [|done]. rewrite (hold_perm _ _ _ _ _ P1), !hold_cons in Hh. destruct Hh as (H1 & H2 & H3). rewrite (hold_perm _ _ _ _ _ P2), hold_cons. split; [|done]. by apply pull_holds.
      + intros (rho & E1 & Hh & E2). rewrite (hold_perm _ _ _ _ _ P2), hold_cons in Hh. destruct Hh as (H1 & H2).
        assert (Hout : forall m' y, m' ∈ G :: rest -> y ∈ nouts m' -> y ∉ nouts n).
        { intros m' y Hm' Hy Hc. apply (Hdis y Hc). unfold names, body'. cbn [rargs rnodes]. rewrite elem_of_app, elem_all_outs. right. apply elem_of_cons in Hm' as [->|Hm']; [exists G' | exists m']; rewrite P2; (split; [|done]); [by left | by right]. }
        destruct (pull_holds_inv other content n subs p es outs rho HGn Hnn H1 Hpn) as (rho' & R1 & R2 & R3).
        { intros x [Hx|Hx]%elem_of_app; [apply (Hout G); [by left | done] | by apply Hself]. }
        assert (M : forall l, (forall x, x ∈ l -> x ∉ nouts n) -> map rho' l = map rho l). { intros l H. apply map_ext_in. intros x Hx%elem_of_list_In. apply R1. auto. }
        exists rho'. split; [|split].
        * rewrite M; [done|]. intros x Hx Hc. apply (Hdis x Hc). unfold names, body'. cbn [rargs]. apply elem_of_app. by left.
        * rewrite (hold_perm _ _ _ _ _ P1), !hold_cons. split; [done|]. split; [done|]. eapply hold_ext; [|exact H2]. intros m' y Hm' Hy. symmetry. apply R1. apply elem_of_app in Hy as [Hy|Hy]; [intros Hc; by apply (proj2 (Hsucc y Hc) m') | apply (Hout m'); [by right | done]].
        * rewrite M; [done|]. intros x Hx Hc. by apply (proj1 (Hsucc x Hc)).
  Qed.
  Lemma same_refl r : same other content r r.
  Proof. done. Qed.
  Lemma same_trans r1 r2 r3 : same other content r1 r2 -> same other content r2 r3 -> same other content r1 r3.
  Proof. intros H1 H2 vs ws. etransitivity; [apply H1 | apply H2]. Qed.
  Lemma pullin_top_ok m p ns fuel : forall body g, shape body g m p ns -> shape (pullin_top fuel body g).1 (pullin_top fuel body g).2 m p ns /\ same other content body (pullin_top fuel body g).1 /\ rargs (pullin_top fuel body g).1 = rargs body /\ rres (pullin_top fuel body g).1 = rres body.
  Proof.
    induction fuel as [|fuel IH]; intros body g Hs; cbn [pullin_top]; [done|]. destruct body as [pre nodes res]. cbn [rnodes].
    destruct (nodes !! g) as [[[o|subs|b] [|q es] outs]|] eqn:Eg; try done. destruct (find_pullable _ g q es) as [i|] eqn:Ef; [|done]. destruct (nodes !! i) as [n|] eqn:Ei; [|done].
    pose proof Hs as Hs0. destruct Hs as (_ & (subs0 & es0 & outs0 & Hg0 & _) & _). cbn [rnodes] in Hg0. rewrite Eg in Hg0. injection Hg0 as <- -> <- <-.
    destruct (pull_step pre nodes res g i n m p ns subs es outs Hs0 Eg Ef Ei) as [H1 H2]. cbn [rargs rres]. destruct (IH _ _ H1) as (H3 & H4 & H5 & H6). cbn [rargs rres] in H5, H6. split; [done|]. split; [by eapply same_trans|]. by split.
  Qed.
  Lemma route_step pre nodes p posts g m ns subs es outs g' posts' : let body := Region pre nodes (p :: posts) in
    shape body g m p ns -> nodes !! g = Some (Node (KGamma subs) (p :: es) outs) -> (forall x, x ∈ posts -> x ∈ pre \/ x ∈ outs) -> route_all (Node (KGamma subs) (p :: es) outs) posts (region_bound body) = (g', posts') ->
    let body' := Region pre (<[g := g']> nodes) (p :: posts') in shape body' g m p ns /\ same other content body body'.
  Proof.
    intros body (((Hn & Hu & Hr) & (rank & Rk1 & Rk2) & Hwg & Hlen) & (subs0 & es0 & outs0 & Hg0 & Hns) & Hm & Him & Hpm & Hhd) Hg Hposts Er body'. change (rnodes body) with nodes in *. change (rargs body) with pre in *. change (rres body) with (p :: posts) in *. rewrite Hg in Hg0. injection Hg0 as <- <- <-.
    set (G := Node (KGamma subs) (p :: es) outs) in *. assert (HGin : G ∈ nodes) by (by eapply elem_of_list_lookup_2). assert (HGn : wf_gamma G) by (by apply Hwg).
    set (next := region_bound body) in *. assert (Hlt : forall x, x ∈ names body -> x < next) by (intros x; apply region_bound_ok).
    assert (Houts : forall y m', m' ∈ nodes -> y ∈ nouts m' -> y ∈ names body). { intros y m' Hm' Hy. unfold names, body. cbn [rargs rnodes]. apply elem_of_app. right. apply elem_all_outs. by exists m'. }
    destruct (route_all_ok other content posts subs p es outs next g' posts' HGn) as (subs' & es' & outs' & EG' & Hls & Hw' & He & (mm & Eo) & Hl & Hp & Hb & Hf).
    { apply Hlt. apply (Hu G); [done | by left]. }
    { intros x Hx. apply Hlt. rewrite !elem_of_app in Hx. destruct Hx as [Hx|[Hx|Hx]]; [apply (Hu G); [done | by right] | by apply (Houts x G) | apply Hr; by right]. }
    { done. }
    pose proof (delete_Permutation _ _ _ Hg) as P1. pose proof (insert_perm _ _ _ g' Hg) as P2.
    assert (Hrin : forall m, m ∈ delete g nodes -> m ∈ nodes) by (intros m' Hm'; rewrite P1; by right).
    assert (Hnames : names body' ≡ₚ names body ++ outs').
    { unfold names, body, body'. cbn [rargs rnodes]. rewrite (all_outs_perm _ _ P1), (all_outs_perm _ _ P2), !all_outs_cons, EG'. cbn [nouts G]. rewrite <-!(assoc_L (++)). apply Permutation_app_head. apply Permutation_app_head. by rewrite (comm (++)). }
    assert (Hes' : forall x, x ∈ es' -> x ∈ pre). { intros x Hx. destruct (He x Hx) as [H1 H2]. destruct (Hposts x H1); done. }
    assert (Hin' : forall x, x ∈ names body -> x ∈ names body') by (intros x Hx; rewrite Hnames; apply elem_of_app; by left).
    split.
    - split; [|split; [|split; [|split; [done|split; [done|done]]]]].
      + split; [|split; [|split]].
        * split; [|split].
          -- rewrite Hnames. apply NoDup_app. split; [done|]. rewrite Eo. split; [|apply NoDup_seq]. intros x Hx Hc. apply elem_of_seq in Hc. specialize (Hlt x Hx). lia.
          -- intros m' x Hm' Hx. unfold body' in Hm'. cbn [rnodes] in Hm'. rewrite P2 in Hm'. apply Hin'. apply elem_of_cons in Hm' as [->|Hm']; [|by apply (Hu m'); [apply Hrin|]]. rewrite EG' in Hx. cbn [nins] in Hx. rewrite elem_of_cons, elem_of_app in Hx.
             destruct Hx as [->|[Hx|Hx]]; [apply (Hu G); [done | by left] | apply (Hu G); [done | by right]|]. unfold names. apply elem_of_app. left. by apply Hes'.
          -- intros x Hx. cbn [rres body'] in Hx. unfold body' in Hx. cbn [rres] in Hx. apply elem_of_cons in Hx as [->|Hx]; [apply Hin', Hr; by left|]. apply Hp in Hx. rewrite Hnames. apply elem_of_app in Hx as [Hx|Hx]; apply elem_of_app; [left; by apply (Houts x G) | by right].
        * set (top := S (foldr max 0 (map rank (names body)))). assert (Htop : forall x, x ∈ names body -> rank x < top). { intros x Hx. unfold top. apply Nat.lt_succ_r. apply fold_max_in. apply elem_of_list_fmap. by exists x. }
          exists (fun y => if decide (y < next) then rank y else top). unfold body'. cbn [rnodes rargs].
          assert (Hrk : forall x, x ∈ names body -> (if decide (x < next) then rank x else top) = rank x) by (intros x Hx; rewrite decide_True; [done | by apply Hlt]).
          assert (HGo : forall y, y ∈ outs ++ outs' -> (y ∈ outs /\ (if decide (y < next) then rank y else top) = rank y) \/ (if decide (y < next) then rank y else top) = top).
          { intros y [Hy|Hy]%elem_of_app; [left; split; [done|]; by apply Hrk, (Houts y G)|]. right. rewrite Eo in Hy. apply elem_of_seq in Hy. by rewrite decide_False by lia. }
          split.
          -- intros m' x y Hm' Hx Hy. rewrite P2 in Hm'. apply elem_of_cons in Hm' as [->|Hm'].
             ++ rewrite EG' in Hx, Hy. cbn [nins nouts] in Hx, Hy. assert (Hxin : x ∈ names body /\ (x ∈ nins G \/ x ∈ pre)). { rewrite elem_of_cons, elem_of_app in Hx. destruct Hx as [->|[Hx|Hx]]; [split; [apply (Hu G); [done | by left] | left; by left] | split; [apply (Hu G); [done | by right] | left; by right]|]. specialize (Hes' x Hx). split; [unfold names; apply elem_of_app; by left | by right]. }
                destruct Hxin as [Hxn Hxx]. rewrite (Hrk x Hxn). destruct (HGo y Hy) as [[Hyo ->]| ->]; [|by apply Htop]. destruct Hxx as [Hxx|Hxx]; [by apply (Rk1 G) | by apply (Rk2 x G)].
             ++ rewrite !Hrk; [apply (Rk1 m'); [by apply Hrin | done | done] | apply (Houts y m'); [by apply Hrin | done] | apply (Hu m'); [by apply Hrin | done]].
          -- intros a m' y Ha Hm' Hy. assert (Han : a ∈ names body) by (unfold names; apply elem_of_app; by left). rewrite (Hrk a Han). rewrite P2 in Hm'. apply elem_of_cons in Hm' as [->|Hm'].
             ++ rewrite EG' in Hy. cbn [nouts] in Hy. destruct (HGo y Hy) as [[Hyo ->]| ->]; [by apply (Rk2 a G) | by apply Htop].
             ++ rewrite Hrk by (apply (Houts y m'); [by apply Hrin | done]). apply (Rk2 a m'); [done | by apply Hrin | done].
        * intros m' Hm'. unfold body' in Hm'. cbn [rnodes] in Hm'. rewrite P2 in Hm'. apply elem_of_cons in Hm' as [->|Hm']; [done|]. by apply Hwg, Hrin.
        * unfold body', body in *. cbn [rres rargs length] in *. by rewrite Hl.
      + exists subs', (es ++ es'), (outs ++ outs'). unfold body'. cbn [rnodes]. rewrite list_lookup_insert by (by eapply lookup_lt_Some). split; [by rewrite EG' | by rewrite Hls].
      + unfold body'. cbn [rnodes]. rewrite P2. rewrite P1 in Hm. apply elem_of_cons in Hm as [E|Hm]; [rewrite E in Him; done | by right].
    - intros vs ws. rewrite !runs_iff. unfold body, body'. cbn [rargs rnodes rres]. split.
      + intros (rho & E1 & Hh & E2). rewrite (hold_perm _ _ _ _ _ P1), hold_cons in Hh. destruct Hh as [H1 H2]. destruct (Hf rho H1) as (rho' & R1 & R2 & R3).
        assert (M : forall l, (forall x, x ∈ l -> x ∈ names body) -> map rho' l = map rho l). { intros l H. apply map_ext_in. intros x Hx%elem_of_list_In. apply R1, Hlt. auto. }
        exists rho'. split; [|split].
        * rewrite M; [done|]. intros x Hx. unfold names. apply elem_of_app. by left.
        * rewrite (hold_perm _ _ _ _ _ P2), hold_cons. split; [done|]. eapply hold_ext; [|exact H2]. intros m' y Hm' Hy. symmetry. apply R1, Hlt. apply elem_of_app in Hy as [Hy|Hy]; [apply (Hu m'); [by apply Hrin | done] | apply (Houts y m'); [by apply Hrin | done]].
        * cbn [map]. rewrite R3, <-E2. cbn [map]. f_equal. apply R1, Hlt, Hr. by left.
      + intros (rho & E1 & Hh & E2). rewrite (hold_perm _ _ _ _ _ P2), hold_cons in Hh. destruct Hh as [H1 H2]. destruct (Hb rho H1) as [H3 H4]. exists rho. split; [done|]. split; [by rewrite (hold_perm _ _ _ _ _ P1), hold_cons|]. cbn [map] in *. by rewrite <-H4.
  Qed.
  Lemma sink_ok body g m p ns : shape body g m p ns -> (forall x n, x ∈ tail (rres body) -> rnodes body !! g = Some n -> x ∈ rargs body \/ x ∈ nouts n) ->
    shape (sink body g).1 (sink body g).2 m p ns /\ same other content body (sink body g).1 /\ rargs (sink body g).1 = rargs body.
  Proof.
    intros Hs Hp. pose proof Hs as Hs0. destruct Hs0 as (_ & (subs & es & outs & Hg & _) & _ & _ & _ & Hhd). destruct body as [pre nodes res]. cbn [rnodes rres rargs] in *. destruct res as [|p' posts]; [done|]. cbn in Hhd. injection Hhd as ->.
    unfold sink. cbn [rnodes rres rargs]. rewrite Hg. destruct (route_all _ posts _) as [n' posts'] eqn:E.
    destruct (route_step pre nodes p posts g m ns subs es outs n' posts' Hs Hg) as [H1 H2]; [intros x Hx; by apply (Hp x _ Hx Hg) | exact E|].
    destruct (pullin_top_ok m p ns (length nodes) _ _ H1) as (H3 & H4 & H5 & H6). split; [done|]. split; [by eapply same_trans | done].
  Qed.
End Sink.
