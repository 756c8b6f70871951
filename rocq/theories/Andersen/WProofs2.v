(** The worklist solver: adding pointees, the invariant, and what simple steps do to it. *)
From stdpp Require Import base list list_numbers fin_sets gmap.
From Coq Require Import Lia.
From Verif.Andersen Require Import Model Spec Proofs Proofs2 Proofs3 Proofs4 Proofs5 WModel WProofs.

Section WInv.
  Context (ord : forall A : Type, nat -> list A -> list A) (ord_perm : forall A k (l : list A), ord A k l ≡ₚ l).
  Context (G : prog) (c : cfg) (n : nat) (kd : nat -> kind) (WG : wf_prog n kd G).
  Notation shape := (shape c n kd). Notation sstep := (sstep G c). Notation step := (step G c n kd). Notation ok := (ok G c n kd).
  Notation vld := (vld n kd). Notation rt := WModel.rt.
  Ltac ssol := try clear WG; try clear ord_perm; set_solver.

  (** *** escape *)
  Lemma ok_escape_pointee I y : vld y -> ok I (escape_pointee G y).
  Proof using WG.
    intros [Hy Hk] w H. unfold escape_pointee. destruct (mark_escaped y (P w)) as [p b] eqn:Em. destruct b.
    2: { unfold mark_escaped in Em. destruct (decide _); [|discriminate]. injection Em as <-. destruct w; apply step_refl; auto. }
    destruct (mark_escaped_state _ _ _ Em) as [Ny [S E1 E2 E3 E4]]. fold (rt w y) in E2, E3.
    pose proof (rt_lt c n kd w y H Hy) as Lr. pose proof (rt_rt c n kd w y H Hy) as Rr.
    assert (Wp : wf p).
    { pose proof (wf_mark_escaped y (P w) (sh_wf _ _ _ w H)) as K. rewrite Em, (sh_npo _ _ _ w H), (sh_kind _ _ _ w H) in K. auto. }
    assert (Lp : le (P w) p) by (split; auto; [ssol..|intros; rewrite E4; auto]).
    set (w1 := setP p w). assert (H1 : shape w1) by (apply shape_setP; auto).
    set (w2 := match kindof (P w1) y with FunctionMO => wescaped_function G y w1 | _ => w1 end).
    assert (S2 : step I w1 w2).
    { unfold w2. destruct (kindof (P w1) y); try (apply step_refl; auto). apply ok_wescaped_function; auto. }
    pose proof (le_trans _ _ _ Lp (ss_le _ _ _ _ _ (proj2 S2))) as L2.
    assert (Ch : forall r, changed w w1 r -> r = rt w y /\ has_pe (P w) (rt w y) && is_ext (P w) (rt w y) = false).
    { intros r C. assert (r = rt w y).
      { destruct C as [C|[C|C]]; cbn in C; rewrite ?E4, ?E2, ?E3 in C; [tauto|ssol|ssol]. }
      subst r. split; auto. apply andb_false_iff. unfold has_pe, is_ext. fold (rt w (rt w y)). rewrite Rr.
      destruct C as [C|[C|C]]; cbn in C; [rewrite E4 in C; tauto|left|right]; apply bool_decide_eq_false; tauto. }
    assert (Ess : forall w3, P w3 = P w2 -> tb w3 = tb w2 -> cy w3 = cy w2 -> newE w3 = newE w2 -> df w3 = df w2 -> wl w2 ⊆ wl w3 ->
              (forall r, r ∈ wl w3 -> r ∈ wl w2 \/ (rt w r = r /\ changed w w3 r)) ->
              (has_pe (P w) (rt w y) && is_ext (P w) (rt w y) = false -> rt w y ∈ wl w3) -> sstep I w w3).
    { intros w3 EP ET EC EN ED LW Psh Dirt. destruct S2 as [Sh2 B]. split.
      - rewrite EP. auto.
      - rewrite ET. apply (ss_tb _ _ _ _ _ B).
      - rewrite EC. apply (ss_cy _ _ _ _ _ B).
      - rewrite EN. apply (ss_newE _ _ _ _ _ B).
      - etrans; [apply (ss_wl _ _ _ _ _ B)|auto].
      - intros r Hr. destruct (Psh r Hr) as [Hr2|]; auto. destruct (ss_push _ _ _ _ _ B r Hr2) as [|[A1 A2]]; auto. right.
        split; [rewrite <- (rt_le w w1 r Lp); auto|]. unfold changed. rewrite EP.
        apply (changed_trans w w1 w2 r Lp (ss_le _ _ _ _ _ B)). auto.
      - intros r Hc. unfold changed in Hc. rewrite EP in Hc. apply (changed_trans w w1 w2 r Lp (ss_le _ _ _ _ _ B)) in Hc as [Hc|Hc].
        + apply Ch in Hc as [-> ?]. auto.
        + apply LW, (ss_dirty _ _ _ _ _ B). auto.
      - intros r Hr. rewrite EP, (ss_prot _ _ _ _ _ B r Hr). cbn. rewrite E4. auto.
      - rewrite ED. apply (ss_tracked _ _ _ _ _ B).
      - rewrite ED. apply (ss_extseen _ _ _ _ _ B).
      - rewrite ED. apply (ss_peseen _ _ _ _ _ B).
      - rewrite ED, EP. intros D r z T A1 A2. apply (ss_new1 _ _ _ _ _ B); auto. cbn. rewrite E4. auto.
      - rewrite ED. apply (ss_new2 _ _ _ _ _ B).
      - rewrite ED, EP. intros r z A1. destruct (ss_new3 _ _ _ _ _ B r z A1) as [|[A2 A3]]; auto. right. split; auto. intros A4. apply A3. cbn. rewrite E4. auto.
      - intros f Hf A1 A2. unfold Es, E, Pp, WModel.rt in *. rewrite EP in *. destruct (decide (f ∈ fesc (P w1))) as [A3|A3].
        + cbn in A3. rewrite E1 in A3. assert (f = y) by ssol. subst f.
          assert (Kf : kindof (P w1) y = FunctionMO) by (rewrite (sh_kind _ _ _ w1 H1); apply (wg_functions _ _ _ WG); auto).
          unfold w2. rewrite Kf. apply (est_wescaped_function G c n kd WG); auto.
        + apply (ss_fn _ _ _ _ _ B); auto. }
    change (let already := has_pe (P w) (rt w y) && is_ext (P w) (rt w y) in step I w (if already then w2 else push (rt w y) w2)). cbn zeta.
    destruct (has_pe (P w) (rt w y) && is_ext (P w) (rt w y)) eqn:Al.
    - split; [apply S2|]. apply Ess; auto. discriminate.
    - split; [apply shape_push; auto; apply S2|]. apply Ess; auto; cbn; [ssol| |ssol].
      intros r. rewrite elem_of_union, elem_of_singleton. intros [->|]; auto. right. split; auto.
      apply andb_false_iff in Al. unfold has_pe, is_ext in Al. rewrite !bool_decide_eq_false in Al. fold (rt w (rt w y)) in Al. rewrite Rr in Al.
      unfold changed. cbn. pose proof (le_pe _ _ (ss_le _ _ _ _ _ (proj2 S2)) (rt w y)) as Q1. pose proof (le_ext _ _ (ss_le _ _ _ _ _ (proj2 S2)) (rt w y)) as Q2.
      cbn in Q1, Q2. rewrite E2 in Q1. rewrite E3 in Q2. right. destruct Al as [Al|Al]; [left|right]; split; auto; [apply Q1|apply Q2]; ssol.
  Qed.
  Lemma est_escape_pointee y w : shape w -> vld y -> Es (escape_pointee G y w) y.
  Proof using WG c.
    intros H [Hy Hk]. unfold escape_pointee. destruct (mark_escaped y (P w)) as [p b] eqn:Em. destruct b.
    2: { unfold mark_escaped in Em. destruct (decide _); [|discriminate]. injection Em as <-. destruct w; auto. }
    destruct (mark_escaped_state _ _ _ Em) as [Ny [S E1 E2 E3 E4]].
    assert (Wp : wf p).
    { pose proof (wf_mark_escaped y (P w) (sh_wf _ _ _ w H)) as K. rewrite Em, (sh_npo _ _ _ w H), (sh_kind _ _ _ w H) in K. auto. }
    assert (Lp : le (P w) p) by (split; auto; [ssol..|intros; rewrite E4; auto]).
    set (w1 := setP p w). assert (H1 : shape w1) by (apply shape_setP; auto).
    assert (A : Es w1 y) by (unfold Es; cbn; rewrite E1; ssol).
    set (w2 := match kindof (P w1) y with FunctionMO => wescaped_function G y w1 | _ => w1 end).
    assert (B : Es w2 y).
    { unfold w2. destruct (kindof (P w1) y); auto. eapply Es_le; [|exact A].
      apply (ss_le _ _ (fun _ => False) _ _ (proj2 (ok_wescaped_function G c n kd WG _ y w1 H1))). }
    change (let already := has_pe (P w) (rt w y) && is_ext (P w) (rt w y) in Es (if already then w2 else push (rt w y) w2) y).
    cbn zeta. destruct (_ && _); auto.
  Qed.

  (** *** adding pointees to one root *)
  Record astep (q : nat) (S : gset nat) (w w' : ws) : Prop := {
    as_static : static (P w) (P w'); as_esc : fesc (P w') = fesc (P w); as_pe : fpe (P w') = fpe (P w); as_ext : fext (P w') = fext (P w);
    as_pts : forall r, pts (P w') r = if decide (r = q) then S ∪ pts (P w) r else pts (P w) r;
    as_tb : tb w' = tb w; as_cy : cy w' = cy w; as_wl : wl w' = wl w; as_newE : newE w' = newE w;
    as_tracked : tracked (df w') = tracked (df w); as_extseen : extseen (df w') = extseen (df w); as_peseen : peseen (df w') = peseen (df w);
    as_newp : forall r y, y ∈ newp (df w') r <-> y ∈ newp (df w) r \/ (r = q /\ dp c = true /\ q ∈ tracked (df w) /\ y ∈ S /\ y ∉ pts (P w) q) }.
  Lemma as_refl q w : astep q ∅ w w.
  Proof using.
    split; auto; [apply static_refl| |].
    - intros r. destruct (decide _); auto. apply leibniz_equiv. clear. set_solver.
    - intros r y. split; [auto|]. intros [|(_ & _ & _ & H & _)]; auto. apply elem_of_empty in H. tauto.
  Qed.
  Lemma as_trans q S1 S2 w1 w2 w3 : astep q S1 w1 w2 -> astep q S2 w2 w3 -> astep q (S1 ∪ S2) w1 w3.
  Proof using.
    intros A B. split; try (etrans; [apply B|apply A]).
    - eapply static_trans; [apply A|apply B].
    - intros r. rewrite (as_pts _ _ _ _ B), (as_pts _ _ _ _ A). destruct (decide (r = q)); auto. apply leibniz_equiv. clear. set_solver.
    - intros r y. rewrite (as_newp _ _ _ _ B), (as_newp _ _ _ _ A), (as_tracked _ _ _ _ A), (as_pts _ _ _ _ A), decide_True by auto.
      destruct (decide (y ∈ S1)); rewrite !elem_of_union; tauto.
  Qed.
  Lemma wf_add w q y : shape w -> q < n -> rt w q = q -> vld y -> y ∉ pts (P w) q ->
    wf (set_pts (upd (pts (P w)) q ({[y]} ∪ pts (P w) q)) (P w)).
  Proof using.
    intros H Hq R [Hy Hk] N. pose proof (wf_add_pointee q y (P w) (sh_wf _ _ _ w H)) as K. rewrite (sh_npo _ _ _ w H), (sh_kind _ _ _ w H) in K.
    specialize (K Hq Hy Hk). unfold add_pointee in K. fold (rt w q) in K. rewrite R, decide_False in K by auto. auto.
  Qed.
  Lemma add_one f q y w : (f = add_pt c \/ f = insert_pt c) -> shape w -> q < n -> rt w q = q -> vld y ->
    exists w' b, f q y w = (w', b) /\ shape w' /\ astep q {[y]} w w' /\ (b = false -> w' = w) /\ (b = true <-> y ∉ pts (P w) q).
  Proof using.
    clear WG ord_perm. intros Hf H Hq R V. set (w1 := setP (add_pointee q y (P w)).1 w).
    destruct (decide (y ∈ pts (P w) q)) as [Hy|Hy].
    - assert (Ea : add_pointee q y (P w) = (P w, false)) by (unfold add_pointee; fold (rt w q); rewrite R, decide_True by auto; auto).
      exists w, false. split; [|split; [auto|split; [|split; [auto|split; [discriminate|tauto]]]]].
      + destruct Hf as [-> | ->]; [unfold add_pt|unfold insert_pt]; rewrite Ea; rewrite andb_false_r; destruct w; auto.
      + destruct (as_refl q w). split; auto.
        * intros r. destruct (decide _) as [->|]; auto. apply leibniz_equiv. set_solver.
        * intros r z. split; [auto|]. intros [|(_ & _ & _ & A & B)]; auto. apply elem_of_singleton in A as ->. tauto.
    - set (p := set_pts (upd (pts (P w)) q ({[y]} ∪ pts (P w) q)) (P w)).
      assert (Ea : add_pointee q y (P w) = (p, true)) by (unfold add_pointee; fold (rt w q); rewrite R, decide_False by auto; auto).
      assert (Wp : wf p) by (apply wf_add; auto).
      assert (Lp : le (P w) p).
      { split; [split; reflexivity|..]; cbn; auto. intros i. unfold upd. destruct (decide _) as [->|]; set_solver. }
      assert (Nn : dp c = true -> y ∉ newp (df w) q) by (intros D X; apply Hy, (sh_newp _ _ _ w H D); auto).
      assert (Sh : shape (setP p w)) by (apply shape_setP; auto).
      set (w' := if dp c && true && bool_decide (q ∈ tracked (df w)) then note_new q y (setP p w) else setP p w).
      assert (As : astep q {[y]} w w').
      { assert (Ep : forall r, pts p r = if decide (r = q) then {[y]} ∪ pts (P w) r else pts (P w) r).
        { intros r. cbn. unfold upd. destruct (decide (r = q)) as [->|]; auto. }
        unfold w'. destruct (dp c) eqn:Dp; cbn [andb]; [case_bool_decide as T|].
        all: split; try reflexivity; [exact (le_static _ _ Lp)|exact Ep|].
        - intros r z. cbn. unfold upd. destruct (decide (r = q)) as [->|]; [|tauto]. rewrite elem_of_union, elem_of_singleton. split; [|tauto].
          intros [->|]; [right|]; auto 6.
        - intros r z. cbn. tauto.
        - intros r z. cbn. rewrite Dp. assert (false <> true) by discriminate. tauto. }
      assert (Sh' : shape w').
      { unfold w'. destruct (_ && _); auto. destruct Sh. split; auto. cbn. intros D r z. unfold upd at 1. destruct (decide (r = q)) as [->|ne]; [|rewrite upd_ne by auto; apply (WProofs.sh_newp _ _ _ w H D)].
        rewrite elem_of_union, elem_of_singleton. intros [->|Hz]; rewrite upd_eq; apply elem_of_union; [left; apply elem_of_singleton; auto|right; apply (WProofs.sh_newp _ _ _ w H D); auto]. }
      exists w', true. split; [|split; [auto|split; [auto|split; [discriminate|tauto]]]].
      destruct Hf as [-> | ->]; [unfold add_pt|unfold insert_pt]; rewrite Ea; auto.
      unfold w'. destruct (dp c) eqn:Dp; auto. destruct (_ && _); auto. rewrite bool_decide_eq_false_2; auto.
  Qed.
  Lemma add_all f q : (f = add_pt c \/ f = insert_pt c) -> q < n -> forall l w, shape w -> rt w q = q -> (forall y, y ∈ l -> vld y) ->
    exists w' b, any_for l (f q) w = (w', b) /\ shape w' /\ astep q (list_to_set l) w w' /\ (b = false -> w' = w) /\
      (b = true -> exists y, y ∈ l /\ y ∉ pts (P w) q).
  Proof using.
    intros Hf Hq. induction l as [|y l IH]; intros w H R V; cbn [any_for].
    - exists w, false. split; [auto|]. split; [auto|]. split; [apply as_refl|]. split; [auto|discriminate].
    - destruct (add_one f q y w Hf H Hq R) as (w1 & b1 & E1 & H1 & A1 & B1 & C1); [apply V; left|]. rewrite E1.
      destruct (IH w1 H1) as (w2 & b2 & E2 & H2 & A2 & B2 & C2).
      { unfold WModel.rt. rewrite (static_root _ _ q (as_static _ _ _ _ A1)). auto. } { intros; apply V; right; auto. }
      rewrite E2. exists w2, (b1 || b2). split; [auto|]. split; [auto|]. split; [exact (as_trans q _ _ _ _ _ A1 A2)|]. split.
      + intros [-> ->]%orb_false_iff. rewrite (B2 eq_refl). auto.
      + destruct b1; [intros _; exists y; split; [left|apply C1; auto]|]. cbn. intros ->. destruct (C2 eq_refl) as (z & Z1 & Z2).
        exists z. split; [right; auto|]. rewrite (B1 eq_refl) in Z2. auto.
  Qed.
  (** then the external flag, then the push *)
  Lemma add_step I f q l nx w : (f = add_pt c \/ f = insert_pt c) -> shape w -> q < n -> rt w q = q -> (forall y, y ∈ l -> vld y) -> ~ I q ->
    exists w1 m1 w2 m2, any_for l (f q) w = (w1, m1) /\ (if (nx : bool) then mark_ext' q w1 else (w1, false)) = (w2, m2) /\
      let w3 := if m1 || m2 then push q w2 else w2 in
      step I w w3 /\ (m1 || m2 = false -> w3 = w) /\ (forall y, y ∈ l -> Pt w3 q y) /\ (nx = true -> E w3 q) /\
      fpe (P w3) = fpe (P w) /\ fesc (P w3) = fesc (P w) /\ newE w3 = newE w /\ (forall r, r <> q -> r ∈ fext (P w3) -> r ∈ fext (P w)).
  Proof using.
    intros Hf H Hq R V NI. destruct (add_all f q Hf Hq l w H R V) as (w1 & m1 & E1 & H1 & A & B & C).
    exists w1, m1. set (r2 := if nx then mark_ext' q w1 else (w1, false)). exists r2.1, r2.2. split; [auto|]. split; [destruct r2; auto|].
    cbn zeta. set (w2 := r2.1). set (m2 := r2.2).
    assert (R1 : rt w1 q = q) by (unfold WModel.rt; rewrite (static_root _ _ q (as_static _ _ _ _ A)); auto).
    assert (X2 : (w2 = w1 /\ m2 = false /\ (nx = true -> q ∈ fext (P w1))) \/
                 (nx = true /\ m2 = true /\ q ∉ fext (P w1) /\ w2 = setP (set_ext ({[q]} ∪ fext (P w1)) (P w1)) w1)).
    { unfold w2, m2, r2. destruct nx; [|left; split; [auto|split; [auto|discriminate]]].
      unfold mark_ext', mark_ext. fold (rt w1 q). rewrite R1. destruct (decide _) as [e|e]; cbn; [left|right]; auto.
      split; [destruct w1; auto|auto]. }
    assert (Sh2 : shape w2).
    { destruct X2 as [(-> & _)|(_ & _ & _ & ->)]; auto. destruct (wf_flag_ext c n kd w1 q H1 Hq R1). apply shape_setP; auto. }
    assert (L1 : le (P w) (P w1)).
    { destruct A. split; auto; rewrite ?as_esc0, ?as_pe0, ?as_ext0; auto. intros i. rewrite as_pts0. destruct (decide _); clear; set_solver. }
    assert (D : forall y, y ∈ pts (P w2) q <-> y ∈ l \/ y ∈ pts (P w) q).
    { intros y. replace (pts (P w2) q) with (pts (P w1) q) by (destruct X2 as [(-> & _)|(_ & _ & _ & ->)]; auto).
      rewrite (as_pts _ _ _ _ A), decide_True, elem_of_union, elem_of_list_to_set by auto. tauto. }
    set (w3 := if m1 || m2 then push q w2 else w2).
    assert (P3 : P w3 = P w2) by (unfold w3; destruct (_ || _); auto).
    assert (D3 : df w3 = df w1) by (unfold w3; destruct X2 as [(-> & _)|(_ & _ & _ & ->)]; destruct (_ || _); auto).
    assert (T3 : tb w3 = tb w) by (rewrite <- (as_tb _ _ _ _ A); unfold w3; destruct X2 as [(-> & _)|(_ & _ & _ & ->)]; destruct (_ || _); auto).
    assert (C3 : cy w3 = cy w) by (rewrite <- (as_cy _ _ _ _ A); unfold w3; destruct X2 as [(-> & _)|(_ & _ & _ & ->)]; destruct (_ || _); auto).
    assert (N3 : newE w3 = newE w) by (rewrite <- (as_newE _ _ _ _ A); unfold w3; destruct X2 as [(-> & _)|(_ & _ & _ & ->)]; destruct (_ || _); auto).
    assert (W3 : wl w3 = if m1 || m2 then {[q]} ∪ wl w else wl w).
    { rewrite <- (as_wl _ _ _ _ A). unfold w3. destruct X2 as [(-> & _)|(_ & _ & _ & ->)]; destruct (_ || _); auto. }
    assert (L3 : le (P w) (P w3)).
    { rewrite P3. eapply le_trans; [exact L1|]. destruct X2 as [(-> & _)|(_ & _ & _ & ->)]; [apply le_refl|].
      apply (wf_flag_ext c n kd w1 q H1 Hq R1). }
    assert (Pq : forall r, r <> q -> pts (P w3) r = pts (P w) r).
    { intros r Hr. rewrite P3. transitivity (pts (P w1) r); [destruct X2 as [(-> & _)|(_ & _ & _ & ->)]; auto|].
      rewrite (as_pts _ _ _ _ A), decide_False; auto. }
    assert (Fpe : fpe (P w3) = fpe (P w)).
    { rewrite P3, <- (as_pe _ _ _ _ A). destruct X2 as [(-> & _)|(_ & _ & _ & ->)]; auto. }
    assert (Fesc : fesc (P w3) = fesc (P w)).
    { rewrite P3, <- (as_esc _ _ _ _ A). destruct X2 as [(-> & _)|(_ & _ & _ & ->)]; auto. }
    assert (Fext : forall r, r ∈ fext (P w3) -> r ∉ fext (P w) -> r = q /\ m2 = true).
    { intros r. rewrite P3, <- (as_ext _ _ _ _ A). destruct X2 as [(-> & _)|(_ & -> & _ & ->)]; [tauto|]. cbn. clear. set_solver. }
    assert (Same : m1 || m2 = false -> w3 = w).
    { intros [M1 M2]%orb_false_iff. unfold w3. rewrite M1, M2. cbn. destruct X2 as [(-> & _)|(_ & X & _)]; [auto|congruence]. }
    assert (Cq : m1 || m2 = true -> changed w w3 q).
    { intros M. destruct m1; cbn in M.
      - left. destruct (C eq_refl) as (y & Y1 & Y2). intros e. apply Y2. rewrite <- e, P3. apply D. auto.
      - right. right. destruct X2 as [(_ & X & _)|(_ & _ & X & Ew)]; [congruence|]. rewrite P3, Ew. cbn. rewrite (as_ext _ _ _ _ A) in *. split; auto. clear. set_solver. }
    assert (Cn : forall r, changed w w3 r -> r = q /\ m1 || m2 = true).
    { intros r Hc. assert (M : m1 || m2 = true) by (destruct (m1 || m2) eqn:M; auto; rewrite (Same eq_refl) in Hc; destruct Hc as [|[|]]; tauto).
      split; auto. destruct (decide (r = q)) as [|ne]; auto. destruct Hc as [Hc|[Hc|[Hc1 Hc2]]].
      - rewrite Pq in Hc by auto. tauto.
      - rewrite Fpe in Hc. tauto.
      - apply (Fext r); auto. }
    split; [split|split; [|split; [|split; [|split; [auto|split; [auto|split; [auto|]]]]]]].
    - unfold w3. destruct (_ || _); auto. apply shape_push; auto.
    - split; auto.
      + rewrite N3. auto.
      + rewrite W3. destruct (_ || _); [clear; set_solver|auto].
      + intros r. rewrite W3. destruct (m1 || m2) eqn:M; [|auto]. rewrite elem_of_union, elem_of_singleton. intros [->|]; auto.
      + intros r Hc. destruct (Cn r Hc) as [-> M]. rewrite W3, M. clear. set_solver.
      + intros r Hr. apply Pq. intros ->. auto.
      + rewrite D3. apply A.
      + rewrite D3. apply A.
      + rewrite D3. apply A.
      + intros Dp r y T Y1 Y2. rewrite D3. apply (as_newp _ _ _ _ A). right.
        assert (r = q) by (destruct (decide (r = q)); auto; rewrite Pq in Y1 by auto; tauto). subst r.
        split; [auto|]. split; [auto|]. split; [auto|]. split; auto. rewrite P3, D in Y1. rewrite elem_of_list_to_set. tauto.
      + intros r y Hy. rewrite D3. apply (as_newp _ _ _ _ A). auto.
      + intros r y. rewrite D3, (as_newp _ _ _ _ A). intros [|(-> & _ & _ & Y1 & Y2)]; auto. right. split; auto.
        rewrite P3, D. rewrite elem_of_list_to_set in Y1. auto.
      + intros f' Hf' Y1 Y2. unfold Es in *. rewrite Fesc in Y1. tauto.
    - exact Same.
    - intros y Hy. unfold Pt, pset. fold (rt w3 q). rewrite (rt_le w w3 q L3), R, P3, D. auto.
    - intros Hn. unfold E. rewrite (rt_le w w3 q L3), R, P3. destruct X2 as [(-> & _ & X)|(_ & _ & _ & ->)]; [auto|]. cbn. clear. set_solver.
    - intros r Hr K. destruct (decide (r ∈ fext (P w))) as [|Nf]; auto. destruct (Fext r K Nf). congruence.
  Qed.
  Lemma ok_prop_one I sp np nx w : shape w -> sp < n -> rt w sp = sp -> (forall y, y ∈ np -> vld y) -> ~ I sp ->
    let '(w', m) := prop_one ord c sp np nx w in
    step I w w' /\ (m = false -> w' = tickw w) /\ (forall y, y ∈ np -> Pt w' sp y) /\ (nx = true -> E w' sp) /\
    fpe (P w') = fpe (P w) /\ fesc (P w') = fesc (P w) /\ newE w' = newE w /\ (forall r, r <> sp -> r ∈ fext (P w') -> r ∈ fext (P w)).
  Proof using ord_perm.
    intros H Hq R V NI. unfold prop_one.
    destruct (add_step I (add_pt c) sp (items ord np w) nx (tickw w)) as (w1 & m1 & w2 & m2 & E1 & E2 & K); auto.
    { apply shape_tickw; auto. } { intros y Hy. apply V. eapply items_in; eauto. }
    rewrite E1, E2. destruct K as (S & Sm & K1 & K2 & K3).
    split; [|split; [auto|split; [|auto]]].
    - eapply step_trans; [|exact S]. apply ok_tickw; auto.
    - intros y Hy. apply K1. eapply items_in; eauto.
  Qed.
  Lemma ok_make_ss I sup sub w : shape w -> sup < n -> sub < n -> rt w sup = sup -> rt w sub = sub -> sup <> sub -> ~ I sup ->
    let '(w0, any) := make_ss ord c sup sub w in
    let w' := if any then push sup w0 else w0 in
    step I w w' /\ (any = false -> w' = tickw w) /\ (forall y, Pt w sub y -> Pt w' sup y) /\ (E w sub -> E w' sup) /\
    fpe (P w') = fpe (P w) /\ fesc (P w') = fesc (P w) /\ newE w' = newE w /\ (forall r, r <> sup -> pts (P w') r = pts (P w) r) /\ (forall r, r <> sup -> r ∈ fext (P w') -> r ∈ fext (P w)).
  Proof using ord_perm.
    intros H Hp Hb Rp Rb Ne NI. unfold make_ss. rewrite Rp, Rb, decide_False by auto.
    pose proof (shape_tickw c n kd w H) as Ht.
    assert (V : forall y, y ∈ items ord (pts (P w) sub) w -> vld y) by (intros y Hy; apply items_in in Hy; auto; eapply pts_vld; eauto).
    set (I' := fun r => r <> sup).
    destruct (add_step I' (insert_pt c) sup (items ord (pts (P w) sub) w) (is_ext (P w) sub) (tickw w)) as (w1 & m1 & w2 & m2 & E1 & E2 & K); auto.
    destruct (add_step I (insert_pt c) sup (items ord (pts (P w) sub) w) (is_ext (P w) sub) (tickw w)) as (w1' & m1' & w2' & m2' & E1' & E2' & K'); auto.
    rewrite E1 in E1'. injection E1' as <- <-. rewrite E2 in E2'. injection E2' as <- <-. rewrite E1.
    assert (Ex : is_ext (P w1) sub = is_ext (P w) sub).
    { destruct (add_all (insert_pt c) sup (or_intror eq_refl) Hp (items ord (pts (P w) sub) w) (tickw w) Ht Rp V) as (w1' & b & F1 & _ & A & _).
      rewrite E1 in F1. injection F1 as <- <-. unfold is_ext. rewrite (static_root _ _ sub (as_static _ _ _ _ A)), (as_ext _ _ _ _ A). auto. }
    rewrite Ex.
    assert (Eq : (if is_ext (P w) sub then let '(w4, b2) := mark_ext' sup w1 in (w4, m1 || b2) else (w1, m1)) = (w2, m1 || m2)).
    { destruct (is_ext (P w) sub); [rewrite E2; auto|]. injection E2 as <- <-. rewrite orb_false_r. auto. }
    rewrite Eq. destruct K as ((_ & S0) & _), K' as (S & Sm & K1 & K2 & K3 & K4 & K5 & K6).
    split; [eapply step_trans; [|exact S]; apply ok_tickw; auto|]. split; [auto|].
    split; [intros y Hy; apply K1; apply items_in; auto; unfold Pt, pset in Hy; fold (rt w sub) in Hy; rewrite Rb in Hy; auto|].
    split; [intros X; apply K2; apply ext_iff; auto|]. do 3 (split; [assumption|]). split; [|exact K6].
    intros r Hr. rewrite (ss_prot _ _ _ _ _ S0 r Hr). auto.
  Qed.
End WInv.
