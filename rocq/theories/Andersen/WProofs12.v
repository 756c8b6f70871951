(** The worklist solver never derives more than any solution allows (without hybrid cycle detection). *)
From stdpp Require Import base list list_numbers fin_sets gmap relations.
From Coq Require Import Lia.
From Verif.Andersen Require Import Model Spec Proofs Proofs2 Proofs3 Proofs4 Proofs5 WModel WProofs WProofs2 WProofs3 WProofs4 WProofs5 WProofs6 WProofs7 WProofs8 WProofs9 WProofs10 WProofs11.
From Verif.Tarjan Require Model Spec.

Section WPrec.
  Context (ord : forall A : Type, nat -> list A -> list A) (ord_perm : forall A k (l : list A), ord A k l ≡ₚ l).
  Context (G : prog) (c : cfg) (n : nat) (kd : nat -> kind) (WG : wf_prog n kd G).
  Notation shape := (shape c n kd). Notation step := (step G c n kd). Notation ok := (ok G c n kd).
  Notation vld := (vld n kd). Notation rt := WModel.rt.
  Notation merged := (merged c).
  (** a solution whose PointeesEscaping flags are set wherever possible *)
  Context (U : assignment) (UR : escape_rules n G U) (Usat : forall x, x < n -> (forall y, Sol U x y -> Esc U y) -> Pe U x).

  Definition same (a b : nat) : Prop := includes U a b /\ includes U b a.
  Lemma inc_refl a : includes U a a.
  Proof using. split; auto. Qed.
  Lemma inc_trans a b d : includes U a b -> includes U b d -> includes U a d.
  Proof using. intros [A B] [C D]. split; auto. Qed.
  Lemma same_refl a : same a a.
  Proof using. split; apply inc_refl. Qed.
  Lemma same_sym a b : same a b -> same b a.
  Proof using. intros []; split; auto. Qed.
  Lemma same_trans a b d : same a b -> same b d -> same a d.
  Proof using. intros [] []. split; eapply inc_trans; eauto. Qed.
  Lemma inc_pe a b : a < n -> b < n -> includes U a b -> Pe U a -> Pe U b.
  Proof using UR Usat. intros Ha Hb [I _] Pa. apply Usat; auto. intros y Hy. eapply (pointees_escape _ _ _ UR a); eauto. Qed.

  Record JP (p : pos) : Prop := {
    jp_pts : forall r y, r < n -> root p r = r -> y ∈ pts p r -> Sol U r y;
    jp_ext : forall r, r < n -> root p r = r -> r ∈ fext p -> Ext U r;
    jp_pe : forall r, r < n -> root p r = r -> r ∈ fpe p -> Pe U r;
    jp_esc : forall r, r ∈ fesc p -> Esc U r;
    jp_sas : forall r y, r < n -> root p r = r -> r ∈ fsas p -> Sol U r y -> Ext U y;
    jp_las : forall r y, r < n -> root p r = r -> r ∈ flas p -> Sol U r y -> Pe U y;
    jp_rt : forall x, x < n -> same (root p x) x }.
  Record JT (t : tables) : Prop := {
    jt_edge : forall r q, q ∈ edges t r -> includes U q r;
    jt_stc : forall r v, v ∈ stc t r -> meaning G kd U (CStore r v);
    jt_ldc : forall r v, v ∈ ldc t r -> meaning G kd U (CLoad v r);
    jt_clc : forall r k, k ∈ clc t r -> meaning G kd U (CCall r k) }.
  Record J (w : ws) : Prop := { j_P : JP (P w); j_T : JT (tb w); j_N : forall a b, (a, b) ∈ newE w -> includes U a b }.
  Lemma J_eqv w w' : eqv (P w) (P w') -> tb w' = tb w -> newE w' = newE w -> J w -> J w'.
  Proof using.
    intros [S E1 E2 E3 E4] ET EN [JP0 JT0 N]. split; [|rewrite ET; auto|rewrite EN; auto].
    destruct JP0. split; try (intros *; rewrite ?(static_root _ _ _ S), ?E1, ?E2, ?E3, ?E4, ?(st_sas _ _ S), ?(st_las _ _ S); eauto; fail).
  Qed.
  Lemma J_quiet w w' : J w -> quiet w w' -> J w'.
  Proof using. intros Jw Q. apply (J_eqv w w'); auto; apply Q. Qed.
  Lemma J_edge w r q : J w -> shape w -> q ∈ edges (tb w) r -> includes U q r.
  Proof using. intros Jw _. apply (jt_edge _ (j_T _ Jw)). Qed.
  Lemma J_same w x : J w -> x < n -> same (rt w x) x.
  Proof using. intros Jw. apply (jp_rt _ (j_P _ Jw)). Qed.
  Lemma J_rt w x : J w -> shape w -> x < n -> includes U (rt w x) x /\ includes U x (rt w x).
  Proof using. intros Jw _. apply (jp_rt _ (j_P _ Jw)). Qed.
  (** constraints move to a pointer with the same meaning *)
  Lemma st_same a b v : includes U b a -> meaning G kd U (CStore b v) -> meaning G kd U (CStore a v).
  Proof using. intros [I1 I2] [A B]. split; auto. Qed.
  Lemma ld_same a b v : includes U b a -> meaning G kd U (CLoad v b) -> meaning G kd U (CLoad v a).
  Proof using. intros [I1 I2] [A B]. split; auto. Qed.
  Lemma cl_same a b v : includes U b a -> meaning G kd U (CCall b v) -> meaning G kd U (CCall a v).
  Proof using. intros [I1 I2] (A & B & C). split; [|split]; eauto. Qed.
  Lemma J_merged w w' r nr : J w -> shape w -> merged w w' r nr -> includes U r nr -> includes U nr r -> J w'.
  Proof using UR Usat.
    intros [JP0 JT0 N] H M L1 L2. destruct (mg_r c n kd w w' r nr H M) as (Lr & Rr & Ln & Rn & Ne).
    pose proof (mg_un _ _ _ _ _ M) as Un. split.
    - assert (Rj : forall j, j < n -> root (P w') j = j -> root (P w) j = j).
      { intros j Hj Rj. change (rt w' j = j) in Rj. rewrite (mg_rt c n kd w w' r nr j H M Hj) in Rj. destruct (decide (rt w j = nr)); [subst; exact Rr|exact Rj]. }
      destruct JP0. split.
      + intros j y Lj Hj. rewrite (un_pts _ _ _ _ Un). destruct (decide (j = nr)); [intros []%elem_of_empty|]. destruct (decide (j = r)) as [->|]; auto.
        rewrite elem_of_union. intros [Hy|Hy]; auto. apply L1; auto.
      + intros j Lj Rjj. rewrite (un_ext _ _ _ _ Un). intros [Hj|[-> Hj]]; auto. apply L1; auto.
      + intros j Lj Rjj. rewrite (un_pe _ _ _ _ Un). intros [Hj|[-> Hj]]; auto. apply (inc_pe nr); auto.
      + intros j. rewrite (un_esc _ _ _ _ Un). auto.
      + intros j y Lj Rjj. rewrite (un_sas _ _ _ _ Un). intros [Hj|[-> Hj]] Hy; eauto. apply (jp_sas0 nr); auto. apply L2; auto.
      + intros j y Lj Rjj. rewrite (un_las _ _ _ _ Un). intros [Hj|[-> Hj]] Hy; eauto. apply (jp_las0 nr); auto. apply L2; auto.
      + intros x Hx. change (same (rt w' x) x). rewrite (mg_rt c n kd w w' r nr x H M Hx). pose proof (jp_rt0 x Hx) as K. fold (rt w x) in K.
        destruct (decide (rt w x = nr)) as [e|]; auto. rewrite e in K. eapply same_trans; [|exact K]. split; auto.
    - destruct JT0. split.
      + intros x q. rewrite (mg_edges _ _ _ _ _ M). destruct (decide (x = nr)); [intros []%elem_of_empty|]. destruct (decide (x = r)) as [->|]; auto.
        rewrite elem_of_difference, elem_of_union. intros [[Hq|Hq] _]; auto. apply (inc_trans q nr r); auto.
      + intros x q. rewrite (mg_stc _ _ _ _ _ M). destruct (decide (x = nr)); [intros []%elem_of_empty|]. destruct (decide (x = r)) as [->|]; auto.
        rewrite elem_of_union. intros [Hq|Hq]; auto. apply (st_same r nr); auto.
      + intros x q. rewrite (mg_ldc _ _ _ _ _ M). destruct (decide (x = nr)); [intros []%elem_of_empty|]. destruct (decide (x = r)) as [->|]; auto.
        rewrite elem_of_union. intros [Hq|Hq]; auto. apply (ld_same r nr); auto.
      + intros x q. rewrite (mg_clc _ _ _ _ _ M). destruct (decide (x = nr)); [intros []%elem_of_empty|]. destruct (decide (x = r)) as [->|]; auto.
        rewrite elem_of_union. intros [Hq|Hq]; auto. apply (cl_same r nr); auto.
    - rewrite (mg_newE _ _ _ _ _ M). auto.
  Qed.

  Notation lcd_spec := (lcd_nothing_spec ord ord_perm G c n kd WG (includes U) J inc_refl inc_trans J_edge J_rt J_merged J_quiet).
  Notation ocd_spec := (ocd_maintain_spec ord ord_perm G c n kd WG (includes U) J inc_refl inc_trans J_edge J_rt J_merged J_quiet).
  Lemma J_wunify a b w : shape w -> J w -> a < n -> b < n -> same a b ->
    let '(w', r) := wunify c a b w in shape w' /\ J w' /\ r < n /\ rt w' r = r /\ (forall x, x < n -> rt w' x = x -> rt w x = x) /\ same r a.
  Proof using UR Usat WG.
    intros H Jw Ha Hb S. pose proof (wunify_raw c n kd a b w H Ha Hb) as K. destruct (wunify c a b w) as [w' r].
    destruct K as [(e & -> & ->)|(ne & nr & C & M)].
    - split; [auto|]. split; [auto|]. split; [apply (rt_lt c n kd); auto|]. split; [apply (rt_rt c n kd); auto|]. split; [auto|]. apply J_same; auto.
    - destruct (mg_r c n kd w w' r nr H M) as (Lr & Rr & Ln & Rn & Ne).
      assert (Sab : same (rt w a) (rt w b)).
      { eapply same_trans; [apply J_same; auto|]. eapply same_trans; [exact S|]. apply same_sym, J_same; auto. }
      assert (Sr : same r nr) by (destruct C as [[-> ->]|[-> ->]]; auto using same_sym).
      split; [eapply mg_shape; eauto|]. split; [eapply J_merged; eauto; apply Sr|]. split; [auto|].
      split; [rewrite (mg_rt c n kd w w' r nr r H M Lr), decide_False; congruence|].
      split; [intros x Hx; apply (le_root _ _ _ (mg_wle _ _ _ _ _ _ _ H M)); auto|].
      destruct C as [[-> _]|[-> _]]; [apply J_same; auto|]. eapply same_trans; [apply J_same; auto|apply same_sym; auto].
  Qed.

  (** *** simple steps *)
  Definition sj (m : ws -> ws) : Prop := forall w, shape w -> J w -> shape (m w) /\ J (m w).
  Lemma sj_id : sj (fun w => w).
  Proof using. intros w; auto. Qed.
  Lemma sj_comp m1 m2 : sj m1 -> sj m2 -> sj (fun w => m2 (m1 w)).
  Proof using. intros A B w H Jw. destruct (A w H Jw). apply B; auto. Qed.
  Lemma sj_wfor {A} (l : list A) f : (forall x, x ∈ l -> sj (f x)) -> sj (wfor l f).
  Proof using.
    unfold wfor. induction l as [|x l IH]; intros H; cbn [fold_left]; [apply sj_id|].
    apply (sj_comp (f x)); [apply H; left|]. apply IH. intros. apply H. right. auto.
  Qed.
  Lemma sj_tickw : sj tickw.
  Proof using. intros w H Jw. split; [apply (shape_tickw c n kd); auto|]. apply (J_quiet w); auto. apply quiet_tickw. Qed.
  Lemma sj_wforset (S : gset nat) f : (forall x, x ∈ S -> sj (f x)) -> sj (wforset ord S f).
  Proof using ord_perm.
    intros H w Hw Jw. unfold wforset. destruct (sj_tickw w Hw Jw). apply sj_wfor; auto.
    intros x Hx. apply H. eapply items_in; eauto.
  Qed.
  Lemma sj_wsome l f : (forall i, Some i ∈ l -> sj (f i)) -> sj (wsome l f).
  Proof using. intros H. apply sj_wfor. intros [i|] Hi; [auto|apply sj_id]. Qed.
  Lemma sj_wpairs l1 l2 f : (forall k i j, l1 !! k = Some (Some i) -> l2 !! k = Some (Some j) -> sj (f i j)) -> sj (wpairs l1 l2 f).
  Proof using.
    intros H. apply sj_wfor. intros [[i|] [j|]] Hi; try apply sj_id.
    apply elem_of_list_lookup in Hi as [k Hi]. apply lookup_zip_with_Some in Hi as (a & b & [= <- <-] & H1 & H2). eauto.
  Qed.
  Lemma sj_push x : x < n -> sj (push x).
  Proof using. intros Hx w H [JP0 JT0 N]. split; [apply shape_push; auto|]. split; auto. Qed.
  Lemma sj_mark_pe i : i < n -> Pe U i -> sj (mark_pe_push i).
  Proof using UR Usat.
    intros Hi Pi w H Jw. split; [apply (ok_mark_pe_push G c n kd (fun _ => False) i Hi w H)|].
    rewrite (mark_pe_push_eq c n kd) by auto. destruct (decide _) as [|ne]; auto. pose proof (J_same w i Jw Hi) as S. destruct Jw as [JP0 JT0 N]. split; auto.
    destruct JP0. split; auto. cbn [fpe fext set_pe set_ext P setP push setW]. intros r Lr' Rr'. rewrite elem_of_union, elem_of_singleton. intros [->|]; auto. apply (inc_pe i); auto. apply S.
  Qed.
  Lemma sj_mark_ext i : i < n -> Ext U i -> sj (mark_ext_push i).
  Proof using.
    intros Hi Pi w H Jw. split; [apply (ok_mark_ext_push G c n kd (fun _ => False) i Hi w H)|].
    rewrite (mark_ext_push_eq c n kd) by auto. destruct (decide _) as [|ne]; auto. pose proof (J_same w i Jw Hi) as S. destruct Jw as [JP0 JT0 N]. split; auto.
    destruct JP0. split; auto. cbn [fpe fext set_pe set_ext P setP push setW]. intros r Lr' Rr'. rewrite elem_of_union, elem_of_singleton. intros [->|]; auto. apply S; auto.
  Qed.
  Lemma sj_queue_edge a b : a < n -> b < n -> includes U a b -> sj (queue_edge a b).
  Proof using.
    intros Ha Hb I w H Jw. split; [apply (ok_queue_edge G c n kd (fun _ => False) a b Ha Hb w H)|].
    unfold queue_edge. destruct (decide _); auto. pose proof (J_same w a Jw Ha) as S1. pose proof (J_same w b Jw Hb) as S2. destruct Jw as [JP0 JT0 N]. split; auto.
    cbn. intros x y. rewrite elem_of_union, elem_of_singleton. intros [[= -> ->]|]; auto.
    apply inc_trans with a; [apply S1|]. apply inc_trans with b; [auto|apply S2].
  Qed.
  Lemma sj_external k : external_call G U k -> sj (wcalling_external G k).
  Proof using WG UR Usat.
    intros [A B]. apply (sj_comp (wsome (cargs G k) mark_pe_push)); apply sj_wsome; intros i Hi.
    - apply sj_mark_pe; auto. eapply wg_cargs; eauto.
    - apply sj_mark_ext; auto. eapply wg_couts; eauto.
  Qed.
  Lemma sj_lambda k f : internal_call G U k f -> sj (wcalling_lambda G k f).
  Proof using WG.
    intros [A B]. apply (sj_comp (wpairs (cargs G k) (fargs G f) (fun i j => queue_edge j i))); apply sj_wpairs; intros m i j Hi Hj;
      pose proof (elem_of_list_lookup_2 _ _ _ Hi); pose proof (elem_of_list_lookup_2 _ _ _ Hj); apply sj_queue_edge; eauto;
      solve [eapply wg_cargs; eauto|eapply wg_couts; eauto|eapply wg_fargs; eauto|eapply wg_fresults; eauto].
  Qed.
  Lemma sj_escaped_function f : f ∈ functions G -> Esc U f -> sj (wescaped_function G f).
  Proof using WG UR Usat.
    intros Hf He.
    apply (sj_comp (wsome (fargs G f) (fun i w => if is_ext (P w) i then w else mark_ext_push i w))); apply sj_wsome; intros i Hi w H Jw.
    - destruct (is_ext _ _); auto. apply sj_mark_ext; auto; [eapply wg_fargs; eauto|eapply escaped_function_params; eauto].
    - destruct (has_pe _ _); auto. apply sj_mark_pe; auto; [eapply wg_fresults; eauto|eapply escaped_function_results; eauto].
  Qed.
  Lemma sj_escape_pointee y : vld y -> Esc U y -> sj (escape_pointee G y).
  Proof using WG UR Usat.
    intros V He w H Jw. split; [apply (ok_escape_pointee G c n kd WG (fun _ => False) y V w H)|]. destruct V as [Hy Hk].
    unfold escape_pointee. destruct (mark_escaped y (P w)) as [p b] eqn:Em. destruct b.
    2: { unfold mark_escaped in Em. destruct (decide _); [|discriminate]. injection Em as <-. destruct w; auto. }
    destruct (mark_escaped_state _ _ _ Em) as [Ny [S E1 E2 E3 E4]]. fold (rt w y) in E2, E3.
    assert (Wp : wf p).
    { pose proof (wf_mark_escaped y (P w) (sh_wf _ _ _ w H)) as K. rewrite Em, (sh_npo _ _ _ w H), (sh_kind _ _ _ w H) in K. auto. }
    destruct (escaped_is_accessible _ _ _ UR y He) as [U1 U2]. pose proof (J_same w y Jw Hy) as Sy. pose proof (rt_lt c n kd w y H Hy) as Lr.
    assert (Jp : J (setP p w)).
    { destruct Jw as [JP0 JT0 N]. split; auto. cbn [P setP]. destruct JP0. split.
      - intros r z Lr' Rr'. rewrite (static_root _ _ r S) in Rr'. rewrite E4. auto.
      - intros r Lr' Rr'. rewrite (static_root _ _ r S) in Rr'. rewrite E3. rewrite elem_of_union, elem_of_singleton. intros [->|]; auto. apply Sy; auto.
      - intros r Lr' Rr'. rewrite (static_root _ _ r S) in Rr'. rewrite E2. rewrite elem_of_union, elem_of_singleton. intros [->|]; auto. apply (inc_pe y); auto. apply Sy.
      - intros r. rewrite E1. rewrite elem_of_union, elem_of_singleton. intros [->|]; auto.
      - intros r z. rewrite (st_sas _ _ S), (static_root _ _ r S). eauto.
      - intros r z. rewrite (st_las _ _ S), (static_root _ _ r S). eauto.
      - intros x Hx. rewrite (static_root _ _ x S). auto. }
    assert (Hp : shape (setP p w)).
    { apply shape_setP; auto. split; auto; rewrite ?E1, ?E2, ?E3; try (intros z Hz; apply elem_of_union; auto). intros i. rewrite E4. auto. }
    assert (K : shape (match kindof (P (setP p w)) y with FunctionMO => wescaped_function G y (setP p w) | _ => setP p w end) /\ J (match kindof (P (setP p w)) y with FunctionMO => wescaped_function G y (setP p w) | _ => setP p w end)).
    { destruct (kindof (P (setP p w)) y) eqn:Ek; auto. apply sj_escaped_function; auto. apply (wg_functions n kd G WG); auto.
      cbn [P setP] in Ek. rewrite (st_kind _ _ S), (sh_kind _ _ _ w H) in Ek. auto. }
    destruct K as [K1 K2]. destruct (_ && _); auto. apply sj_push; auto.
  Qed.
  Lemma J_astep q S w w' : astep c q S w w' -> (forall y, y ∈ S -> Sol U q y) -> J w -> J w'.
  Proof using.
    intros [A1 A2 A3 A4 A5 A6 A7 A8 A9 _ _ _ _] HS [JP0 JT0 N]. split; [|rewrite A6; auto|rewrite A9; auto].
    destruct JP0. split; try (intros *; rewrite ?(static_root _ _ _ A1), ?A2, ?A3, ?A4, ?(st_sas _ _ A1), ?(st_las _ _ A1); eauto; fail).
    - intros r y. rewrite A5, (static_root _ _ r A1). destruct (decide _) as [->|]; auto. rewrite elem_of_union. intros Lr Rr [|]; auto.
  Qed.
  Lemma J_mark_ext' q w : rt w q = q -> Ext U q -> J w -> J (mark_ext' q w).1.
  Proof using.
    intros R X [JP0 JT0 N]. unfold mark_ext', mark_ext. fold (rt w q). rewrite R. destruct (decide _); [destruct w; split; auto|]. cbn [fst]. split; auto.
    cbn [P setP]. destruct JP0. split; auto. cbn [fpe fext set_pe set_ext P setP push setW]. intros r Lr' Rr'. rewrite elem_of_union, elem_of_singleton. intros [->|]; auto.
  Qed.
  Lemma J_prop_one sp np nx w : shape w -> J w -> sp < n -> rt w sp = sp -> (forall y, y ∈ np -> vld y) ->
    (forall y, y ∈ np -> Sol U sp y) -> (nx = true -> Ext U sp) -> J (prop_one ord c sp np nx w).1.
  Proof using ord_perm.
    intros H Jw Hs R V HS HX. unfold prop_one. destruct (sj_tickw w H Jw) as [Ht Jt].
    destruct (add_all c n kd (add_pt c) sp) with (l := items ord np w) (w := tickw w) as (w1 & m1 & E1 & H1 & A1 & B1 & _); auto.
    { intros y Hy. apply V. eapply items_in; eauto. }
    rewrite E1. assert (J1 : J w1).
    { apply (J_astep sp (list_to_set (items ord np w)) (tickw w)); auto. intros y. rewrite elem_of_list_to_set, items_in; auto. }
    assert (R1 : rt w1 sp = sp) by (unfold WModel.rt; rewrite (static_root _ _ sp (as_static _ _ _ _ _ A1)); exact R).
    assert (K : J (if nx then mark_ext' sp w1 else (w1, false)).1) by (destruct nx; auto; apply J_mark_ext'; auto).
    destruct (if nx then mark_ext' sp w1 else (w1, false)) as [w2 m2]. cbn [fst] in *. destruct (m1 || m2); auto. destruct K; split; auto.
  Qed.
  Lemma J_make_ss sup sub w : shape w -> J w -> sup < n -> sub < n -> rt w sup = sup -> rt w sub = sub -> includes U sup sub -> J (make_ss ord c sup sub w).1.
  Proof using ord_perm.
    intros H Jw Hp Hb Rp Rb [I1 I2]. unfold make_ss. rewrite Rp, Rb. destruct (decide _); auto. destruct (sj_tickw w H Jw) as [Ht Jt].
    destruct (add_all c n kd (insert_pt c) sup) with (l := items ord (pts (P w) sub) w) (w := tickw w) as (w1 & m1 & E1 & H1 & A1 & B1 & _); auto.
    { intros y Hy. apply items_in in Hy; auto. eapply pts_vld; eauto. }
    rewrite E1. assert (J1 : J w1).
    { apply (J_astep sup (list_to_set (items ord (pts (P w) sub) w)) (tickw w)); auto. intros y. rewrite elem_of_list_to_set, items_in; auto.
      intros Hy. apply I1. apply (jp_pts _ (j_P _ Jw)); auto. }
    assert (R1 : forall x, rt w1 x = rt w x) by (intros x; unfold WModel.rt; rewrite (static_root _ _ x (as_static _ _ _ _ _ A1)); auto).
    destruct (is_ext (P w1) sub) eqn:Ex; auto. assert (Xs : Ext U sup).
    { apply I2. apply ext_iff in Ex. change (rt w1 sub ∈ fext (P w1)) in Ex. rewrite R1, Rb in Ex. apply (jp_ext _ (j_P _ J1)); auto. change (rt w1 sub = sub). rewrite R1. auto. }
    pose proof (J_mark_ext' sup w1) as K. rewrite R1 in K. specialize (K Rp Xs J1). destruct (mark_ext' sup w1); auto.
  Qed.

  (** *** edges *)
  Lemma shape_add_edge w sup sub : shape w -> sup < n -> sub < n -> rt w sub = sub ->
    shape (setT (mktb (upd (edges (tb w)) sub ({[sup]} ∪ edges (tb w) sub)) (stc (tb w)) (ldc (tb w)) (clc (tb w))) w).
  Proof using.
    intros H Hp Hb Rb. pose proof (sh_edges _ _ _ w H) as HE. destruct H. split; auto. intros r q. cbn. unfold upd.
    destruct (decide (r = sub)) as [->|]; [rewrite elem_of_union, elem_of_singleton; intros [->|Hq]; [auto|apply HE in Hq; auto]|intros Hq; apply HE in Hq; auto].
  Qed.
  Lemma add_edge_sj superset subset w w' : shape w -> J w -> superset < n -> subset < n -> includes U superset subset ->
    add_edge ord c superset subset w = Some w' -> shape w' /\ J w'.
  Proof using WG UR Usat ord_perm.
    intros H Jw Hp Hb I. unfold add_edge. set (sup := rt w superset). set (sub := rt w subset).
    assert (Lp : sup < n) by (apply (rt_lt c n kd); auto). assert (Lb : sub < n) by (apply (rt_lt c n kd); auto).
    assert (Rp : rt w sup = sup) by (apply (rt_rt c n kd); auto). assert (Rb : rt w sub = sub) by (apply (rt_rt c n kd); auto).
    assert (II : includes U sup sub).
    { apply inc_trans with superset; [apply J_same; auto|]. apply inc_trans with subset; auto. apply J_same; auto. }
    clearbody sup sub.
    destruct (decide (sup = sub)) as [|Ne]; [intros [= <-]; auto|].
    destruct (pip c && (is_ext (P w) sup && has_pe (P w) sub)); [intros [= <-]; auto|].
    destruct (pip c && implicit (P w) sup) eqn:Ei.
    { intros [= <-]. apply sj_mark_pe; auto. apply andb_true_iff in Ei as [_ Ei]. apply andb_true_iff in Ei as [_ Ei]. apply pe_iff in Ei.
      change (rt w sup ∈ fpe (P w)) in Ei. rewrite Rp in Ei. apply (inc_pe sup); auto. apply (jp_pe _ (j_P _ Jw)); auto. }
    destruct (decide (sup ∈ edges (tb w) sub)); [intros [= <-]; auto|].
    set (w1 := setT _ w). assert (H1 : shape w1) by (apply shape_add_edge; auto).
    assert (J1 : J w1).
    { destruct Jw as [JP0 JT0 N]. split; auto. destruct JT0. split; auto. cbn. intros r q. unfold upd.
      destruct (decide (r = sub)) as [->|]; auto. rewrite elem_of_union, elem_of_singleton. intros [->|]; auto. }
    assert (Tail : forall w2, shape w2 -> J w2 -> (forall x, rt w2 x = rt w x) ->
      (let '(w0, any) := make_ss ord c sup sub w2 in let w0 := if (any : bool) then push sup w0 else w0 in
        if lcd c && negb (bool_decide (pset (P w0) sub = ∅)) && negb any then
          '(w0, o) ← lcd_nothing ord c sub sup w0;
          Some (match (o : option nat) with Some r => push r w0 | None => w0 end)
        else Some w0) = Some w' -> shape w' /\ J w').
    { intros w2 H2 J2 R2. assert (Rp2 : rt w2 sup = sup) by (rewrite R2; auto). assert (Rb2 : rt w2 sub = sub) by (rewrite R2; auto).
      pose proof (ok_make_ss ord ord_perm G c n kd (fun _ => False) sup sub w2 H2 Lp Lb Rp2 Rb2 Ne (fun x => x)) as K.
      pose proof (J_make_ss sup sub w2 H2 J2 Lp Lb Rp2 Rb2 II) as K'. destruct (make_ss ord c sup sub w2) as [w3 any]. cbn [fst] in K'. destruct K as (S3 & _).
      set (w4 := if any then push sup w3 else w3) in *. assert (J4 : J w4) by (unfold w4; destruct any; auto; destruct K'; split; auto).
      destruct S3 as [H4 S4]. pose proof (fun x => rt_le _ _ x (ss_le _ _ _ _ _ S4)) as R4.
      cbn zeta. fold w4. destruct (lcd c && _ && negb any); [|intros [= <-]; auto].
      destruct (lcd_nothing ord c sub sup w4) as [[w5 o]|] eqn:Ec; cbn [mbind option_bind]; [|discriminate].
      apply lcd_spec in Ec; auto; [|rewrite R4; auto|rewrite R4; auto]. destruct o as [r|]; intros [= <-].
      - destruct Ec as (M & _). apply sj_push; [apply (ms_lt _ _ _ _ _ _ _ _ _ M)|apply (ms_shape _ _ _ _ _ _ _ _ _ M)|apply (ms_J _ _ _ _ _ _ _ _ _ M)].
      - split; [eapply quiet_shape; eauto|eapply J_quiet; eauto]. }
    destruct (ocd c).
    - destruct (ocd_maintain ord c sub sup w1) as [[w2 o]|] eqn:Ec; cbn [mbind option_bind]; [|discriminate].
      apply ocd_spec in Ec; auto. destruct o as [r|].
      + intros [= <-]. destruct Ec as (M & _). apply sj_push; [apply (ms_lt _ _ _ _ _ _ _ _ _ M)|apply (ms_shape _ _ _ _ _ _ _ _ _ M)|apply (ms_J _ _ _ _ _ _ _ _ _ M)].
      + apply Tail; [eapply quiet_shape; eauto|eapply J_quiet; eauto|]. intros x. rewrite (quiet_rt _ _ x Ec). auto.
    - cbn [mbind option_bind]. apply Tail; auto.
  Qed.
  Lemma flush_list_sj l : forall w w', (forall a b, (a, b) ∈ l -> a < n /\ b < n /\ includes U a b) -> shape w -> J w -> flush_list ord c l w = Some w' -> shape w' /\ J w'.
  Proof using WG UR Usat ord_perm.
    induction l as [|[a b] l IH]; intros w w' Hl H Jw; cbn [flush_list]; [intros [= <-]; auto|].
    destruct (add_edge ord c a b w) as [w1|] eqn:E1; cbn [mbind option_bind]; [|discriminate].
    destruct (Hl a b) as (A1 & A2 & A3); [left|]. apply add_edge_sj in E1 as [H1 J1]; auto. apply IH; auto. intros. apply Hl. right. auto.
  Qed.
  Lemma flush_sj w w' : shape w -> J w -> flush ord c w = Some w' -> shape w' /\ J w'.
  Proof using WG UR Usat ord_perm.
    intros H Jw. unfold flush. destruct (flush_list _ _ _ _) as [w1|] eqn:E1; cbn [mbind option_bind]; [|discriminate]. intros [= <-].
    destruct (sj_tickw w H Jw) as [Ht Jt]. apply flush_list_sj in E1 as [H1 J1]; auto.
    - split; [destruct H1; split; auto; cbn; intros a b []%elem_of_empty|]. destruct J1; split; auto. cbn. intros a b []%elem_of_empty.
    - intros a b. rewrite (ord_perm _ _ _), elem_of_elements. intros Hab. destruct (sh_newE _ _ _ w H a b Hab). split; [auto|]. split; [auto|]. apply (j_N _ Jw); auto.
  Qed.

  (** *** one work item *)
  Lemma erase_sj node q : sj (erase_edge node q).
  Proof using.
    intros w H Jw.
    assert (Ed : forall r x, x ∈ edges (tb (erase_edge node q w)) r -> x ∈ edges (tb w) r).
    { intros r x. cbn. unfold upd. destruct (decide (r = node)) as [->|]; [rewrite elem_of_difference; tauto|tauto]. }
    split.
    - pose proof (sh_edges _ _ _ w H) as HE. destruct H. split; auto. intros r x Hx. apply Ed in Hx. apply HE in Hx. auto.
    - destruct Jw as [JP0 JT0 N]. split; auto. destruct JT0. split; auto.
  Qed.
  Section Node.
    Context (node : nat) (np : gset nat) (nx : bool) (Hn : node < n) (V : forall y, y ∈ np -> vld y).
    Context (NS : forall y, y ∈ np -> Sol U node y) (NX : nx = true -> Ext U node).
    Lemma propagate_sj pesc : forall l w w' d, shape w -> J w -> rt w node = node -> (forall q, q ∈ l -> q < n /\ includes U q node) ->
      propagate ord c l node np nx pesc w = Some (w', d) -> shape w' /\ J w'.
    Proof using WG UR Usat ord_perm Hn V NS NX.
      induction l as [|q l IH]; intros w w' d H Jw Rn Hl; cbn [propagate]; [intros [= <- <-]; auto|].
      destruct (Hl q) as [Hq Iq]; [left|]. assert (Hl' : forall x, x ∈ l -> x < n /\ includes U x node) by (intros; apply Hl; right; auto).
      destruct (erase_sj node q w H Jw) as [He Je].
      destruct (decide (rt w q = node)) as [e|ne]; [apply IH; auto|].
      destruct (pip c && _); [apply IH; auto|].
      set (sp := rt w q) in *. assert (Hs : sp < n) by (apply (rt_lt c n kd); auto). assert (Rs : rt w sp = sp) by (apply (rt_rt c n kd); auto).
      assert (Is : includes U sp node) by (apply inc_trans with q; auto; apply J_same; auto).
      pose proof (ok_prop_one ord ord_perm G c n kd (fun x => x = node) sp np nx w H Hs Rs V ne) as K.
      assert (K' : J (prop_one ord c sp np nx w).1) by (apply J_prop_one; auto; [intros y Hy; apply Is; auto|intros Hx; apply Is; auto]).
      destruct (prop_one ord c sp np nx w) as [w1 m]. cbn [fst] in K'. destruct K as ([H1 S1] & _). pose proof (fun x => rt_le _ _ x (ss_le _ _ _ _ _ S1)) as R1.
      destruct (lcd c && _ && negb m); [|apply IH; auto; rewrite R1; auto].
      destruct (lcd_nothing ord c node sp w1) as [[w2 o]|] eqn:Ec; cbn [mbind option_bind]; [|discriminate].
      apply lcd_spec in Ec; auto; [|rewrite R1; auto|rewrite R1; auto]. destruct o as [r|].
      - intros [= <- <-]. destruct Ec as (M & _). apply sj_push; [apply (ms_lt _ _ _ _ _ _ _ _ _ M)|apply (ms_shape _ _ _ _ _ _ _ _ _ M)|apply (ms_J _ _ _ _ _ _ _ _ _ M)].
      - apply IH; auto; [eapply quiet_shape; eauto|eapply J_quiet; eauto|rewrite (quiet_rt _ _ _ Ec), R1; auto].
    Qed.
    Lemma sj_each (f : nat -> ws -> ws) (g : ws -> ws) : (forall y, y ∈ np -> sj (f y)) -> (nx = true -> sj g) ->
      sj (fun w => let w := wforset ord np f w in if nx then g w else w).
    Proof using ord_perm.
      clear NX NS V.
      intros A B w H Jw. destruct (sj_wforset np f A w H Jw). destruct nx; auto. apply B; auto.
    Qed.
    Lemma sj_stores : sj (do_stores ord node np nx).
    Proof using WG UR Usat ord_perm V NS NX.
      intros w H Jw. unfold do_stores. refine (sj_wforset _ _ _ w H Jw). intros v Hv. destruct (sh_stc _ _ _ w H _ _ Hv) as (_ & _ & Lv).
      destruct (jt_stc _ (j_T _ Jw) _ _ Hv) as [M1 M2]. apply sj_each.
      - intros y Hy. apply sj_queue_edge; auto. apply V; auto.
      - intros Hx. apply sj_mark_pe; auto.
    Qed.
    Lemma sj_loads : sj (do_loads ord node np nx).
    Proof using WG UR Usat ord_perm V NS NX.
      intros w H Jw. unfold do_loads. refine (sj_wforset _ _ _ w H Jw). intros v Hv. destruct (sh_ldc _ _ _ w H _ _ Hv) as (_ & _ & Lv).
      destruct (jt_ldc _ (j_T _ Jw) _ _ Hv) as [M1 M2]. apply sj_each.
      - intros y Hy. apply sj_queue_edge; auto. apply V; auto.
      - intros Hx. apply sj_mark_ext; auto.
    Qed.
    Lemma flag_rt w : shape w -> J w -> (is_sas (P w) node = true -> forall y, y ∈ np -> Ext U y) /\ (is_las (P w) node = true -> forall y, y ∈ np -> Pe U y).
    Proof using Hn NS.
      intros H Jw. pose proof (J_same w node Jw Hn) as [S1 S2]. split; intros Hf y Hy; apply bool_decide_eq_true in Hf; fold (rt w node) in Hf; pose proof (rt_lt c n kd w node H Hn); pose proof (rt_rt c n kd w node H Hn).
      - apply (jp_sas _ (j_P _ Jw) (rt w node)); auto. apply S1; auto.
      - apply (jp_las _ (j_P _ Jw) (rt w node)); auto. apply S1; auto.
    Qed.
    Lemma sj_sas : sj (do_sas ord node np).
    Proof using WG UR Usat ord_perm Hn V NS.
      intros w H Jw. unfold do_sas. destruct (_ && _) eqn:Es; auto. apply andb_true_iff in Es as [Es _]. apply sj_wforset; auto.
      intros y Hy. apply sj_mark_ext; [apply V; auto|]. eapply flag_rt; eauto.
    Qed.
    Lemma sj_las : sj (do_las ord node np).
    Proof using WG UR Usat ord_perm Hn V NS.
      intros w H Jw. unfold do_las. destruct (_ && _) eqn:Es; auto. apply andb_true_iff in Es as [Es _]. apply sj_wforset; auto.
      intros y Hy. apply sj_mark_pe; [apply V; auto|]. eapply flag_rt; eauto.
    Qed.
    Lemma sj_calls : sj (do_calls ord G node np nx).
    Proof using WG UR Usat ord_perm V NS NX.
      intros w H Jw. unfold do_calls. refine (sj_wforset _ _ _ w H Jw). intros k Hk.
      destruct (jt_clc _ (j_T _ Jw) _ _ Hk) as (M1 & M2 & M3). apply sj_each.
      - intros y Hy w' H' J'. rewrite (sh_kind _ _ _ w' H'). destruct (kd y) eqn:Ek; auto; [apply sj_lambda; auto|apply sj_external; eauto].
      - intros Hx. apply sj_external; auto.
    Qed.
    Lemma sj_finish npe : sj (finish c node nx npe).
    Proof using.
      clear NX NS V.
      intros w H Jw. assert (EP : P (finish c node nx npe w) = P w) by (unfold finish; destruct (dp c), nx, npe; auto).
      assert (ET : tb (finish c node nx npe w) = tb w) by (unfold finish; destruct (dp c), nx, npe; auto).
      assert (EN : newE (finish c node nx npe w) = newE w) by (unfold finish; destruct (dp c), nx, npe; auto).
      split.
      - assert (EW : wl (finish c node nx npe w) = wl w) by (unfold finish; destruct (dp c), nx, npe; auto).
        assert (EC : cy (finish c node nx npe w) = cy w) by (unfold finish; destruct (dp c), nx, npe; auto).
        assert (Ert : forall x, rt (finish c node nx npe w) x = rt w x) by (intros; unfold WModel.rt; rewrite EP; auto).
        destruct H as [? ? ? ? ? ? ? ? ? Hnp ?]. split; rewrite ?EP, ?ET, ?EN, ?EW, ?EC; auto; try (intros *; rewrite Ert; eauto; fail).
        intros D r y. specialize (Hnp D r y). unfold finish. rewrite D.
        assert (K : y ∈ upd (newp (df w)) node ∅ r -> y ∈ pts (P w) r) by (unfold upd; destruct (decide _); [intros []%elem_of_empty|auto]).
        destruct nx, npe; exact K.
      - destruct Jw. split; rewrite ?EP, ?ET, ?EN; auto.
    Qed.
  End Node.
  Lemma wremove_sj node w : node < n -> rt w node = node -> shape w -> J w -> shape (wremove c node w) /\ J (wremove c node w).
  Proof using.
    intros Hn R H Jw. set (w1 := wremove c node w).
    assert (EP : P w1 = set_pts (upd (pts (P w)) node ∅) (P w)).
    { unfold w1, wremove, remove_all_pointees. fold (rt w node). rewrite R. destruct (dp c); auto. }
    assert (ET : tb w1 = tb w) by (unfold w1, wremove; destruct (dp c); auto).
    assert (EN : newE w1 = newE w) by (unfold w1, wremove; destruct (dp c); auto).
    assert (EW : wl w1 = wl w) by (unfold w1, wremove; destruct (dp c); auto).
    assert (EC : cy w1 = cy w) by (unfold w1, wremove; destruct (dp c); auto).
    assert (Enp : forall r, r <> node -> newp (df w1) r = newp (df w) r).
    { intros r Hr. unfold w1, wremove. destruct (dp c); auto. cbn. apply upd_ne; auto. }
    assert (Ert : forall x, rt w1 x = rt w x) by (intros; unfold WModel.rt; rewrite EP; auto).
    assert (Ep : forall r, pts (P w1) r = if decide (r = node) then ∅ else pts (P w) r) by (intros; rewrite EP; auto).
    split.
    - pose proof (wf_remove_all node (P w) (sh_wf _ _ _ w H)) as W. rewrite (sh_npo _ _ _ w H) in W. specialize (W Hn).
      destruct H as [S1 S2 S3 S4 S5 S6 S7 S8 S9 S10 S11]. split; rewrite ?ET, ?EN, ?EW, ?EC; auto; try (intros *; rewrite Ert; eauto; fail); try (rewrite EP; auto; fail).
      + unfold w1, wremove. destruct (dp c); auto.
      + intros D r y. rewrite Ep. destruct (decide (r = node)) as [->|Ne]; [|rewrite Enp by auto; auto].
        unfold w1, wremove. rewrite D. cbn. rewrite upd_eq. auto.
    - destruct Jw as [JP0 JT0 N]. split; [|rewrite ET; auto|rewrite EN; auto]. destruct JP0. split; try (rewrite EP; auto; fail).
      intros r y. change (root (P w1) r) with (rt w1 r). rewrite Ert, Ep. destruct (decide _); [intros _ _ []%elem_of_empty|auto].
  Qed.
  Lemma pip_mark_sj node w : node < n -> rt w node = node -> shape w -> J w ->
    let w1 := pip_mark ord c node w in shape w1 /\ J w1 /\ pts (P w1) = pts (P w) /\ (forall x, rt w1 x = rt w x).
  Proof using WG UR Usat ord_perm.
    intros Hn R H Jw. destruct (pip_mark_cases ord ord_perm c n kd node w H Hn R) as [->|(Nf & -> & q & Hq & Pq)]; cbn zeta; [auto|].
    destruct (sh_edges _ _ _ w H _ _ Hq) as (_ & _ & Lq).
    assert (Pn : Pe U node).
    { apply (inc_pe q); auto; [apply (jt_edge _ (j_T _ Jw)); auto|]. pose proof (J_same w q Jw Lq) as S.
      pose proof (rt_lt c n kd w q H Lq) as Lr. pose proof (rt_rt c n kd w q H Lq) as Rr. apply (inc_pe (rt w q)); auto; [apply S|apply (jp_pe _ (j_P _ Jw)); auto]. }
    destruct (sj_mark_pe node Hn Pn w H Jw) as [H1 J1].
    pose proof (ok_mark_pe_push G c n kd (fun _ => False) node Hn w H) as S. pose proof (fun x => rt_le _ _ x (ss_le _ _ _ _ _ (proj2 S))) as R1.
    split; [apply shape_setW; auto; intros x Hx; apply (sh_wl _ _ _ w H); auto|]. split; [destruct J1; split; auto|]. split; [|exact R1].
    rewrite (mark_pe_push_eq c n kd), R, decide_False by auto. auto.
  Qed.
  Lemma visit_sj node np0 nx w w' : shape w -> J w -> node < n -> rt w node = node -> (forall y, y ∈ np0 -> y ∈ pts (P w) node) ->
    (nx = true -> node ∈ fext (P w)) -> visit ord G c node np0 nx w = Some w' -> shape w' /\ J w'.
  Proof using WG UR Usat ord_perm.
    intros H Jw Hn R Hnp Hnx. unfold visit.
    assert (V0 : forall y, y ∈ np0 -> vld y) by (intros y Hy; eapply pts_vld; eauto).
    assert (NS0 : forall y, y ∈ np0 -> Sol U node y) by (intros y Hy; apply (jp_pts _ (j_P _ Jw)); auto).
    assert (NX0 : nx = true -> Ext U node) by (intros; apply (jp_ext _ (j_P _ Jw)); auto).
    destruct (pip_mark_sj node w Hn R H Jw) as (H1 & J1 & P1 & R1). set (w1 := pip_mark ord c node w) in *. clearbody w1.
    set (pesc := has_pe (P w1) node). set (npe := pe_new c w1 node).
    set (w2 := if pesc then wforset ord (if npe then pset (P w1) node else np0) (escape_pointee G) w1 else w1).
    assert (K2 : shape w2 /\ J w2 /\ forall x, rt w2 x = rt w1 x).
    { unfold w2. destruct pesc eqn:Ep; [|auto]. apply pe_iff in Ep. fold (rt w1 node) in Ep. rewrite R1, R in Ep.
      assert (HS : forall y, y ∈ (if npe then pset (P w1) node else np0) -> vld y /\ Esc U y).
      { intros y Hy. assert (Hy' : y ∈ pts (P w1) node).
        { destruct npe; [unfold pset in Hy; fold (rt w1 node) in Hy; rewrite R1, R in Hy; auto|rewrite P1; auto]. }
        split; [eapply pts_vld; eauto|]. eapply (pointees_escape _ _ _ UR node); auto; [apply (jp_pe _ (j_P _ J1)); auto|apply (jp_pts _ (j_P _ J1)); auto]; change (rt w1 node = node); rewrite R1; auto. }
      assert (O : ok (fun _ => False) (wforset ord (if npe then pset (P w1) node else np0) (escape_pointee G))).
      { apply ok_wforset; auto. intros y Hy. apply ok_escape_pointee; auto. apply HS; auto. }
      destruct (sj_wforset (if npe then pset (P w1) node else np0) (escape_pointee G)) with (w := w1) as [A B]; auto; [intros y Hy; apply sj_escape_pointee; apply HS; auto|].
      split; [auto|]. split; [auto|]. intros x. apply (rt_le _ _ x (ss_le _ _ _ _ _ (proj2 (O w1 H1)))). }
    destruct K2 as (H2 & J2 & R2). clearbody w2.
    assert (Rn2 : rt w2 node = node) by (rewrite R2, R1; auto).
    assert (K3 : let '(w3, np) := if pip c && implicit (P w2) node then (wremove c node w2, ∅) else (w2, np0) in
      shape w3 /\ J w3 /\ rt w3 node = node /\ forall y, y ∈ np -> y ∈ np0).
    { destruct (_ && _); [|auto]. destruct (wremove_sj node w2 Hn Rn2 H2 J2) as [A B]. split; [auto|]. split; [auto|]. split; [|intros y []%elem_of_empty].
      unfold WModel.rt, wremove in *. destruct (dp c); exact Rn2. }
    destruct (if pip c && implicit (P w2) node then (wremove c node w2, ∅) else (w2, np0)) as [w3 np]. destruct K3 as (H3 & J3 & R3 & Hnp3).
    assert (V : forall y, y ∈ np -> vld y) by auto. assert (NS : forall y, y ∈ np -> Sol U node y) by auto.
    destruct (propagate _ _ _ _ _ _ _ _) as [[w4 done]|] eqn:Epr; cbn [mbind option_bind]; [|discriminate].
    destruct (sj_tickw w3 H3 J3) as [Ht Jt]. apply propagate_sj in Epr as [H4 J4]; auto.
    2: { intros q Hq. apply items_in in Hq; auto. split; [apply (sh_edges _ _ _ w3 H3 _ _ Hq)|apply (jt_edge _ (j_T _ J3)); auto]. }
    destruct done; [intros [= <-]; auto|]. intros Ef.
    destruct (sj_stores node np nx V NS NX0 w4 H4 J4) as [H5 J5]. destruct (sj_sas node np Hn V NS _ H5 J5) as [H6 J6].
    destruct (sj_loads node np nx V NS NX0 _ H6 J6) as [H7 J7]. destruct (sj_las node np Hn V NS _ H7 J7) as [H8 J8].
    destruct (sj_calls node np nx V NS NX0 _ H8 J8) as [H9 J9]. destruct (sj_finish node nx npe _ H9 J9) as [H10 J10].
    eapply flush_sj; eauto.
  Qed.
  Context (NH : hcd c = false).
  Lemma handle_sj node w w' : shape w -> J w -> node < n -> handle ord G c node w = Some w' -> shape w' /\ J w'.
  Proof using WG UR Usat ord_perm NH.
    intros H Jw Hn. unfold handle. destruct (is_root (P w) node) eqn:Er; [|intros [= <-]; auto]. apply bool_decide_eq_true in Er. fold (rt w node) in Er.
    rewrite NH. apply visit_sj; auto.
    - intros y. unfold new_pointees. destruct (dp c) eqn:D; cbn [andb]; [|unfold pset; fold (rt w node); rewrite Er; auto].
      destruct (bool_decide _); [apply (sh_newp _ _ _ w H); auto|unfold pset; fold (rt w node); rewrite Er; auto].
    - unfold ext_new. rewrite andb_true_iff. intros [Ex _]. apply ext_iff in Ex. fold (rt w node) in Ex. rewrite Er in Ex. auto.
  Qed.
  Lemma pop_sj w l : (forall x, x ∈ l -> x < n) -> shape w -> J w -> shape (tickw (setW l w)) /\ J (tickw (setW l w)).
  Proof using. intros Hl H Jw. apply sj_tickw; [apply shape_setW; auto|]. destruct Jw; split; auto. Qed.

  (** *** the drivers *)
  Context (pick : nat -> gset nat -> nat) (pick_in : forall k (S : gset nat), S <> ∅ -> pick k S ∈ S) (MAX : nat) (HM : n < MAX).
  Notation good := (good G c n kd). Notation none := (fun _ : nat => False). Notation wle := (wle n).
  Lemma pop_handle node w w' : node < n -> shape w -> J w -> handle ord G c node (tickw (setW (wl w ∖ {[node]}) w)) = Some w' -> shape w' /\ J w'.
  Proof using WG UR Usat ord_perm NH.
    intros Hn H Jw. destruct (pop_sj w (wl w ∖ {[node]})) as [A B]; auto; [|apply handle_sj; auto].
    intros x [Hx _]%elem_of_difference. apply (sh_wl _ _ _ w H); auto.
  Qed.
  Lemma run_worklist_sj fuel : forall w w', shape w -> J w -> run_worklist ord pick G c fuel w = Some w' -> shape w' /\ J w'.
  Proof using WG UR Usat ord_perm NH pick_in.
    induction fuel as [|fuel IH]; intros w w' H Jw; cbn [run_worklist]; (destruct (decide (wl w = ∅)) as [e|ne]; [intros [= <-]; auto|]); [discriminate|].
    destruct (handle _ _ _ _ _) as [w1|] eqn:E1; cbn [mbind option_bind]; [|discriminate].
    apply pop_handle in E1 as [H1 J1]; eauto. apply (sh_wl _ _ _ w H). auto.
  Qed.
  Lemma repeat_node_sj fuel node : node < n -> forall w w', shape w -> J w -> repeat_node ord G c fuel node w = Some w' -> shape w' /\ J w'.
  Proof using WG UR Usat ord_perm NH.
    intros Hn. induction fuel as [|fuel IH]; intros w w' H Jw; cbn [repeat_node]; (destruct (decide (node ∈ wl w)) as [e|ne]; [|intros [= <-]; auto]); [discriminate|].
    destruct (handle _ _ _ _ _) as [w1|] eqn:E1; cbn [mbind option_bind]; [|discriminate]. apply pop_handle in E1 as [H1 J1]; eauto.
  Qed.
  Lemma sweep_unify cur next w : cur < n -> next < n -> good none w -> newE w = ∅ ->
    let '(w1, u) := wunify c cur next w in
    let w2 := push u (setW (wl w1 ∖ {[if decide (u = cur) then next else cur]}) w1) in good none w2 /\ wle w w2 /\ newE w2 = ∅.
  Proof using WG.
    intros Hc Hn Gd N. pose proof Gd as [H I F]. assert (M : let '(w1, u) := wunify c cur next w in
      shape w1 /\ Inv G c n kd (fun x => x = u) None w1 /\ FI G w1 /\ wle w w1 /\ newE w1 = ∅ /\ wl w1 = wl w /\ u < n /\ rt w1 cur = u /\ rt w1 next = u).
    { destruct (decide (rt w cur = rt w next)) as [e1|ne1].
      - pose proof (wunify_raw c n kd cur next w H Hc Hn) as K. destruct (wunify c cur next w) as [w1 u]. destruct K as [(_ & -> & ->)|(ne1 & _)]; [|congruence].
        split; [auto|]. split; [apply (Inv_weaken G c n kd WG none); cbn [WProofs3.exc_in]; auto; tauto|]. split; [auto|]. split; [apply wle_refl|]. repeat split; auto. apply (rt_lt c n kd); auto.
      - pose proof (wunify_first G c n kd WG (fun _ _ => True) (fun _ => True) (fun _ => Logic.I) (fun _ _ _ _ _ _ _ _ _ => Logic.I) cur next w H Logic.I Hc Hn ne1 Logic.I Logic.I) as K.
        destruct (wunify c cur next w) as [w1 u]. destruct K as (M & M1 & M2 & _).
        destruct (good_mstep G c n kd WG none none None w w1 u H Logic.I I F M) as (H2 & I2 & F2 & L2).
        split; [auto|]. split; [apply (Inv_weaken G c n kd WG (fun x => False \/ x = u)); cbn [WProofs3.exc_in]; auto; tauto|]. split; [auto|]. split; [auto|].
        split; [rewrite (ms_newE _ _ _ _ _ _ _ _ _ M); auto|]. split; [apply (ms_wl _ _ _ _ _ _ _ _ _ M)|]. split; [apply (ms_lt _ _ _ _ _ _ _ _ _ M)|auto]. }
    destruct (wunify c cur next w) as [w1 u]. destruct M as (H1 & I1 & F1 & L1 & N1 & W1 & Lu & Ru1 & Ru2). cbn zeta.
    set (old := if decide (u = cur) then next else cur) in *. split; [|split; [eapply wle_trans; [exact L1|]; unfold push; eapply wle_trans; [apply wle_wl|apply wle_wl]|auto]].
    unfold push. apply (good_setW G c n kd WG (fun x => x = u) none w1); [split; auto| |].
    - intros x. rewrite elem_of_union, elem_of_singleton. intros [->|Hx]; auto. apply elem_of_difference in Hx as [Hx _]. apply (sh_wl _ _ _ w1 H1); auto.
    - intros r Hr Rr. cbn. rewrite elem_of_union, elem_of_singleton, elem_of_difference, elem_of_singleton. intros K _. split; [|tauto].
      intros K1. apply K. right. split; auto. intros ->. apply K. left. unfold old in *. destruct (decide (u = cur)); congruence.
  Qed.
  (** objects in one strongly connected component of the superset edges are equal in every solution *)
  Lemma scc_same w t : shape w -> J w -> scc ord MAX w = Some t -> forall a b, a < n -> rt w a = a -> b < n -> rt w b = b ->
    Verif.Tarjan.Model.sccIndex t a = Verif.Tarjan.Model.sccIndex t b -> same a b.
  Proof using ord_perm HM.
    intros H Jw Es a b La Ra Lb Rb E. destruct (scc_spec ord ord_perm MAX c n kd w HM H) as (t' & Es' & R). rewrite Es in Es'. injection Es' as <-.
    apply (Verif.Tarjan.Spec.r_same _ _ _ _ _ _ _ R a b (conj La Ra) (conj Lb Rb)) in E as [E1 E2].
    assert (K : forall x y, rtc (Verif.Tarjan.Spec.edge n (rt w) (fun v => items ord (edges (tb w) v) w)) x y -> includes U y x).
    { intros x y HP. induction HP as [|x y z [[Hx Rx] (q & Q1 & Q2)] _ IH]; [apply inc_refl|]. apply inc_trans with y; auto. subst y.
      apply items_in in Q1; auto. destruct (sh_edges _ _ _ w H _ _ Q1) as (_ & _ & Lq). apply inc_trans with q; [apply J_same; auto|apply (jt_edge _ (j_T _ Jw)); auto]. }
    split; apply K; auto.
  Qed.
  Lemma sweep_sj fuel idx w0 : (forall a b, a < n -> rt w0 a = a -> b < n -> rt w0 b = b -> idx a = idx b -> same a b) ->
    forall l cur w w', (cur < n /\ rt w0 cur = cur) -> (forall y, y ∈ l -> y < n /\ rt w0 y = y) -> good none w -> newE w = ∅ -> J w -> wle w0 w ->
    sweep ord G c fuel idx cur l w = Some w' -> J w'.
  Proof using WG UR Usat ord_perm NH.
    intros HI. induction l as [|next l IH]; intros cur w w' [Hc Rc] Hl Gd N Jw L0; cbn [sweep]; [apply repeat_node_sj; auto; apply Gd|].
    destruct (Hl next) as [Hn Rn]; [left|]. assert (Hl' : forall y, y ∈ l -> y < n /\ rt w0 y = y) by (intros; apply Hl; right; auto).
    pose proof (g_shape _ _ _ _ _ _ Gd) as H.
    destruct (decide (idx cur = idx next)) as [e|ne].
    - pose proof (J_wunify cur next w H Jw Hc Hn (HI _ _ Hc Rc Hn Rn e)) as K. pose proof (sweep_unify cur next w Hc Hn Gd N) as K'.
      destruct (wunify c cur next w) as [w1 u]. destruct K as (H1 & J1 & Lu & Ru & Rm & _). destruct K' as (G2 & L2 & N2).
      apply IH; auto.
      + split; auto. apply (le_root _ _ _ L0); auto.
      + destruct J1; split; auto.
      + eapply wle_trans; eauto.
    - destruct (repeat_node _ _ _ _ _ _) as [w1|] eqn:E1; cbn [mbind option_bind]; [|discriminate].
      destruct (repeat_node_good ord ord_perm G c n kd WG fuel cur Hc w w1 Gd N E1) as (G1 & L1 & N1). apply repeat_node_sj in E1 as [_ J1]; auto.
      apply IH; auto. eapply wle_trans; eauto.
  Qed.
  Lemma run_topological_sj fuel : forall w w', good none w -> newE w = ∅ -> J w -> run_topological ord MAX G c fuel w = Some w' -> J w'.
  Proof using WG UR Usat ord_perm NH HM.
    induction fuel as [|fuel IH]; intros w w' Gd N Jw; cbn [run_topological]; (destruct (decide (wl w = ∅)) as [e|ne]; [intros [= <-]; auto|]); [discriminate|].
    pose proof (g_shape _ _ _ _ _ _ Gd) as H.
    destruct (scc ord MAX w) as [t|] eqn:Es; cbn [mbind option_bind]; [|discriminate].
    assert (Ht := fun y => scc_rto ord ord_perm MAX c n kd w t y HM H Es).
    assert (Kt : forall w1, match rev (Verif.Tarjan.Model.rto t) with [] => Some w | cur :: l => sweep ord G c (S fuel) (Verif.Tarjan.Model.sccIndex t) cur l (tickw w) end = Some w1 -> good none w1 /\ newE w1 = ∅ /\ J w1).
    { intros w1. destruct (rev _) as [|cur l]; [intros [= <-]; auto|].
      destruct (good_ss G c n kd WG (fun _ => False) none w (tickw w)) as [Gt Lt]; [auto|apply ok_tickw; auto|].
      intros E1. destruct (sweep_good ord ord_perm G c n kd WG (S fuel) (Verif.Tarjan.Model.sccIndex t) l cur (tickw w) w1) as (G1 & L1 & N1); auto.
      - apply Ht. left.
      - intros y Hy. apply Ht. right. auto.
      - split; [auto|]. split; [auto|]. apply (sweep_sj (S fuel) _ w (scc_same w t H Jw Es) l cur (tickw w) w1); auto.
        + apply Ht. left.
        + intros y Hy. apply Ht. right. auto.
        + apply sj_tickw; auto. }
    destruct (match rev (Verif.Tarjan.Model.rto t) with [] => Some w | cur :: l => _ end) as [w1|]; cbn [mbind option_bind]; [|discriminate].
    destruct (Kt w1 eq_refl) as (G1 & N1 & J1). apply IH; auto.
  Qed.
  Lemma ocd_place_all_sj idx w0 : (forall a b, a < n -> rt w0 a = a -> b < n -> rt w0 b = b -> idx a = idx b -> same a b) ->
    forall l k cur w, (cur < n /\ rt w0 cur = cur) -> (forall y, y ∈ l -> y < n /\ rt w0 y = y) -> shape w -> J w -> (forall x, x < n -> rt w x = x -> rt w0 x = x) ->
    J (ocd_place_all c idx k cur l w).
  Proof using WG UR Usat.
    intros HI. induction l as [|next l IH]; intros k cur w [Hc Rc] Hl H Jw Rm; cbn [ocd_place_all]; [destruct Jw; split; auto|].
    destruct (Hl next) as [Hn Rn]; [left|]. assert (Hl' : forall y, y ∈ l -> y < n /\ rt w0 y = y) by (intros; apply Hl; right; auto).
    destruct (decide (idx cur = idx next)) as [e|ne].
    - pose proof (J_wunify cur next w H Jw Hc Hn (HI _ _ Hc Rc Hn Rn e)) as K.
      destruct (wunify c cur next w) as [w1 u]. destruct K as (H1 & J1 & Lu & Ru & Rm1 & _). apply IH; auto.
    - apply IH; auto; [eapply quiet_shape; [apply quiet_topo|auto]|eapply J_quiet; [eauto|apply quiet_topo]].
  Qed.
  Lemma ocd_init_sj w w' : shape w -> J w -> ocd_init ord MAX c w = Some w' -> J w'.
  Proof using WG UR Usat ord_perm HM.
    intros H Jw. unfold ocd_init. destruct (scc ord MAX w) as [t|] eqn:Es; cbn [mbind option_bind]; [|discriminate]. intros [= <-].
    assert (Ht := fun y => scc_rto ord ord_perm MAX c n kd w t y HM H Es).
    destruct (rev _) as [|cur l]; [auto|]. destruct (sj_tickw w H Jw). apply (ocd_place_all_sj _ w (scc_same w t H Jw Es)); auto.
    - apply Ht. left.
    - intros y Hy. apply Ht. right. auto.
  Qed.
  (** the escaped functions at the start *)
  Definition pj (m : op) : Prop := forall p, wf p -> npo p = n -> JP p -> wf (m p).1 /\ npo (m p).1 = n /\ fesc (m p).1 = fesc p /\ JP (m p).1.
  Lemma pj_forop {A} (l : list A) f : (forall x, x ∈ l -> pj (f x)) -> pj (forop l f).
  Proof using.
    induction l as [|x l IH]; intros H p W N Jp; cbn [forop]; [auto|]. rewrite seqop_1.
    destruct (H x) with (p := p) as (A1 & A2 & A3 & A4); auto; [left|]. destruct (IH (fun y Hy => H y (elem_of_list_further y x l Hy)) _ A1 A2 A4) as (B1 & B2 & B3 & B4). rewrite B3, A3 in *. auto.
  Qed.
  Lemma pj_mark_ext i : i < n -> Ext U i -> pj (mark_ext i).
  Proof using.
    intros Hi X p W N Jp. pose proof (wf_mark_ext i p W) as K. rewrite N in K. split; [auto|]. unfold mark_ext. destruct (decide _); cbn [fst]; auto.
    split; [auto|]. split; [auto|]. pose proof (jp_rt _ Jp i Hi) as S. destruct Jp. split; auto. cbn [fpe fext set_pe set_ext P setP push setW]. intros r Lr' Rr'. rewrite elem_of_union, elem_of_singleton. intros [->|]; auto. apply S; auto.
  Qed.
  Lemma pj_mark_pe i : i < n -> Pe U i -> pj (mark_pe i).
  Proof using UR Usat.
    intros Hi X p W N Jp. pose proof (wf_mark_pe i p W) as K. rewrite N in K. split; [auto|]. unfold mark_pe. destruct (decide _); cbn [fst]; auto.
    split; [auto|]. split; [auto|]. pose proof (jp_rt _ Jp i Hi) as S. assert (Lr : root p i < n) by (rewrite <- N; apply root_lt; auto; rewrite N; auto).
    destruct Jp. split; auto. cbn [fpe fext set_pe set_ext P setP push setW]. intros r Lr' Rr'. rewrite elem_of_union, elem_of_singleton. intros [->|]; auto. apply (inc_pe i); auto. apply S.
  Qed.
  Lemma pj_escaped_functions : pj (escaped_functions G).
  Proof using WG UR Usat.
    apply pj_forop. intros f Hf p W N Jp. unfold ifop. destruct (has_escaped p f) eqn:Ee; [|auto]. apply esc_iff in Ee.
    assert (Uf : Esc U f) by (apply (jp_esc _ Jp); auto). unfold escaped_function. rewrite seqop_1.
    assert (A : pj (forsome (fargs G f) (fun i => ifop (fun s => negb (is_ext s i)) (mark_ext i)))).
    { apply pj_forop. intros [i|] Hi; [|intros q; cbn; auto]. intros q Wq Nq Jq. unfold ifop. destruct (negb _); auto. apply pj_mark_ext; auto; [eapply wg_fargs; eauto|eapply escaped_function_params; eauto]. }
    assert (B : pj (forsome (fresults G f) (fun i => ifop (fun s => negb (has_pe s i)) (mark_pe i)))).
    { apply pj_forop. intros [i|] Hi; [|intros q; cbn; auto]. intros q Wq Nq Jq. unfold ifop. destruct (negb _); auto. apply pj_mark_pe; auto; [eapply wg_fresults; eauto|eapply escaped_function_results; eauto]. }
    destruct (A p W N Jp) as (A1 & A2 & A3 & A4). destruct (B _ A1 A2 A4) as (B1 & B2 & B3 & B4). rewrite B3, A3. auto.
  Qed.
  Lemma start_sj w : shape w -> J w -> J (start_ws G w).
  Proof using WG UR Usat.
    intros H [JP0 JT0 N]. unfold start_ws. split; auto. cbn [P setP setW]. apply pj_escaped_functions; auto; apply H.
  Qed.
  (** the initial state *)
  Lemma init_sj s cs ref : wf s -> npo s = n -> kindof s = kd -> (forall k, k ∈ cs -> cstr_in n k) -> solution G s cs U -> J (init_ws s cs ref).
  Proof using UR Usat.
    intros Wf Hn Hk HC [SI SU SC SR SS SL].
    assert (Rs : forall x, x < n -> same (root s x) x).
    { intros x Hx. rewrite <- Hn in Hx. destruct (SU (root s x) x) as (A & B & C); auto; [apply root_lt; auto|apply root_root; auto|].
      split; split; intros; [apply A|apply B|apply A|apply B]; auto. }
    destruct SI as [I1 I2 I3 I4]. split.
    - cbn [P init_ws]. split; auto.
      + intros r y Hr Rr Hy. rewrite <- Hn in Hr. apply I1; auto. cbn. unfold is_pointing_to. apply orb_true_iff. right. apply bool_decide_eq_true. unfold pset. rewrite Rr. auto.
      + intros r Hr Rr Hy. rewrite <- Hn in Hr. apply I2; auto. cbn. apply ext_iff. rewrite Rr. auto.
      + intros r Hr Rr Hy. rewrite <- Hn in Hr. apply I4; auto. cbn. apply pe_iff. rewrite Rr. auto.
      + intros r Hy. apply I3; [apply (wf_flags s Wf); auto|]. cbn. apply esc_iff. auto.
      + intros r y Hr Rr Hs Hy. rewrite <- Hn in Hr. apply (SS r y); auto. apply bool_decide_eq_true. rewrite Rr. auto.
      + intros r y Hr Rr Hs Hy. rewrite <- Hn in Hr. apply (SL r y); auto. apply bool_decide_eq_true. rewrite Rr. auto.
    - cbn [tb init_ws]. split; intros r q Hq; apply init_tables_spec in Hq as (k & Hk1 & Hk2); pose proof (SC k Hk1) as M; pose proof (HC k Hk1) as Ck; rewrite Hk in M; destruct k as [a b|p v|v p|p m]; try (destruct Hk2; fail); cbn [cstr_in] in Ck.
      + destruct Hk2 as (_ & -> & ->). cbn [meaning] in M. apply inc_trans with a; [apply Rs; tauto|]. apply inc_trans with b; [auto|apply Rs; tauto].
      + destruct Hk2 as (-> & ->). destruct Ck as [Cp Cv]. apply (st_same _ p); [apply Rs; auto|]. destruct M as [M1 M2]. split.
        * intros x Hx. apply inc_trans with v; auto. apply Rs; auto.
        * intros Hx. apply (inc_pe v); auto; [rewrite <- Hn; apply root_lt; auto; rewrite Hn; auto|apply Rs; auto].
      + destruct Hk2 as (-> & ->). destruct Ck as [Cv Cp]. apply (ld_same _ p); [apply Rs; auto|]. destruct M as [M1 M2]. split.
        * intros x Hx. apply inc_trans with v; auto. apply Rs; auto.
        * intros Hx. apply (proj1 (Rs v Cv)); auto.
      + destruct Hk2 as (-> & ->). apply (cl_same _ p); [apply Rs; auto|]. auto.
    - cbn. intros a b []%elem_of_empty.
  Qed.
  Lemma solve_J topo fuel cs ref s s' : wf s -> npo s = n -> kindof s = kd -> (forall k, k ∈ cs -> cstr_in n k) -> (forall i x, ref i = Some x -> x < n) ->
    solution G s cs U -> solve_worklist ord pick MAX G c topo fuel cs ref s = Some s' -> wf s' /\ npo s' = n /\ JP s'.
  Proof using ord_perm pick_in WG UR Usat NH HM.
    intros Wf Hn Hk HC HR HU. unfold solve_worklist. pose proof (init_shape c n kd s cs ref Wf Hn Hk HC HR) as H0. pose proof (fresh_init s cs ref) as F0.
    pose proof (init_sj s cs ref Wf Hn Hk HC HU) as J0. set (w0 := init_ws s cs ref) in *.
    assert (K : forall w1, (if ocd c then ocd_init ord MAX c w0 else Some w0) = Some w1 -> started c n kd w0 w1 /\ J w1).
    { intros w1. destruct (ocd c).
      - intros E. split; [apply (ocd_init_started ord ord_perm MAX c n kd w0); auto|apply (ocd_init_sj w0); auto].
      - intros [= <-]. split; [|auto]. split; [auto|]. split; [auto|apply wle_refl]. }
    destruct (if ocd c then _ else _) as [w1|]; cbn [mbind option_bind]; [|discriminate].
    destruct (K w1 eq_refl) as ((H1 & F1 & L1) & J1). destruct (start_good G c n kd WG w1 H1 F1) as (G2 & L2 & N2). pose proof (start_sj w1 H1 J1) as J2.
    assert (Q : forall w2, (if topo then run_topological ord MAX G c fuel (start_ws G w1) else run_worklist ord pick G c fuel (start_ws G w1)) = Some w2 ->
      shape w2 /\ J w2).
    { intros w2. destruct topo; intros E.
      - split; [|apply (run_topological_sj fuel (start_ws G w1)); auto]. apply (run_topological_good ord ord_perm MAX G c n kd WG) in E as [[Gd _] _]; auto. apply Gd.
      - apply (run_worklist_sj fuel (start_ws G w1) w2); [apply (g_shape _ _ _ _ _ _ G2)|exact J2|exact E]. }
    destruct (if topo then _ else _) as [w2|]; cbn [mbind option_bind]; [|discriminate]. intros [= <-].
    destruct (Q w2 eq_refl) as [H3 J3]. split; [apply H3|]. split; [apply H3|apply J3].
  Qed.
End WPrec.

(** the worklist solver's result is below every solution, up to the PointeesEscaping flags
    that hold anyway because everything pointed to escapes *)
Lemma saturate_solution G s cs T : wf s -> solution G s cs T -> solution G s cs (saturate T).
Proof.
  intros Wf HT. pose proof HT as [[I1 I2 I3 I4] SU SC SR SS SL]. split.
  - split; auto. intros x Hx Px. left. auto.
  - intros x y Hx Hy E. destruct (SU x y Hx Hy E) as (A & B & C). split; [auto|]. split; [auto|]. rewrite !(saturate_pe G s cs T) by auto. split; intros K z Hz; apply K, A, Hz.
  - intros k Hk. apply saturate_meaning. auto.
  - destruct SR as [R1 R2 R3 R4 R5]. split; cbn; auto; try (intros; left; eauto; fail); eauto.
    + intros x y Hx [Px|Px] Hy; eauto.
    + intros y Hy. destruct (R2 y Hy). auto.
  - exact SS.
  - intros x y Hx Hl Hy. left. eapply SL; eauto.
Qed.
Lemma solve_below ord pick MAX G c topo fuel cs ref s s' T :
  (forall A k (l : list A), ord A k l ≡ₚ l) -> (forall k (S : gset nat), S <> ∅ -> pick k S ∈ S) ->
  npo s < MAX -> wf s -> wf_prog (npo s) (kindof s) G -> (forall k, k ∈ cs -> cstr_in (npo s) k) -> (forall i x, ref i = Some x -> x < npo s) ->
  hcd c = false -> solve_worklist ord pick MAX G c topo fuel cs ref s = Some s' -> solution G s cs T -> at_most (npo s) (observe s') (saturate T).
Proof.
  intros O Pk HM Wf WG HC HR NH E HT. pose proof (saturate_solution G s cs T Wf HT) as HU.
  destruct (solve_J ord O G c (npo s) (kindof s) WG (saturate T)) with (topo := topo) (fuel := fuel) (cs := cs) (ref := ref) (s := s) (s' := s') (pick := pick) (MAX := MAX) as (Wf' & N' & Jp); auto.
  - apply HU.
  - intros x Hx K. right. exact K.
  - assert (L : forall x, x < npo s -> root s' x < npo s /\ root s' (root s' x) = root s' x /\ same (saturate T) (root s' x) x).
    { intros x Hx. rewrite <- N' in Hx. split; [rewrite <- N'; apply root_lt; auto|]. split; [apply root_root; auto|]. apply (jp_rt _ _ _ Jp). rewrite <- N'. auto. }
    split.
    + intros x y Hx Hy. destruct (L x Hx) as (L1 & L2 & [S1 S2]). cbn in Hy. unfold is_pointing_to in Hy. apply orb_true_iff in Hy as [Hy|Hy].
      * apply andb_true_iff in Hy as [Hy1 Hy2]. apply ext_iff in Hy1. apply esc_iff in Hy2.
        apply (external_points_to_escaped _ _ _ (so_rules _ _ _ _ HU)); auto; [|apply (jp_esc _ _ _ Jp); auto]. apply S2. apply (jp_ext _ _ _ Jp); auto.
      * apply bool_decide_eq_true in Hy. apply S2. apply (jp_pts _ _ _ Jp); auto.
    + intros x Hx Hy. destruct (L x Hx) as (L1 & L2 & [S1 S2]). apply ext_iff in Hy. apply S2. apply (jp_ext _ _ _ Jp); auto.
    + intros x Hx Hy. apply esc_iff in Hy. apply (jp_esc _ _ _ Jp); auto.
    + intros x Hx Hy. destruct (L x Hx) as (L1 & L2 & [S1 S2]). apply pe_iff in Hy.
      apply (saturate_pe G s cs T x HT Hx). intros y Sy.
      assert (Pr : Pe (saturate T) (root s' x)) by (apply (jp_pe _ _ _ Jp); auto).
      apply (saturate_pe G s cs T (root s' x) HT L1) with (y := y) in Pr; auto. apply S1. auto.
Qed.
