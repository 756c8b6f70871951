(** The worklist solver: states, simple steps. *)
From stdpp Require Import base list list_numbers fin_sets gmap.
From Coq Require Import Lia.
From Verif.Andersen Require Import Model Spec Proofs Proofs2 Proofs3 Proofs4 Proofs5 WModel.

(** what a state says about pointer objects, through their roots *)
Definition E (w : ws) (x : nat) : Prop := rt w x ∈ fext (P w).
Definition Pp (w : ws) (x : nat) : Prop := rt w x ∈ fpe (P w).
Definition Es (w : ws) (y : nat) : Prop := y ∈ fesc (P w).
Definition Pt (w : ws) (x y : nat) : Prop := y ∈ pset (P w) x.
Definition So (w : ws) (x y : nat) : Prop := (E w x /\ Es w y) \/ Pt w x y.
Definition Sas (w : ws) (x : nat) : Prop := rt w x ∈ fsas (P w).
Definition Las (w : ws) (x : nat) : Prop := rt w x ∈ flas (P w).

Section WStep.
  Context (ord : forall A : Type, nat -> list A -> list A) (ord_perm : forall A k (l : list A), ord A k l ≡ₚ l).
  Context (G : prog) (c : cfg) (n : nat) (kd : nat -> kind) (WG : wf_prog n kd G).

  Ltac ssol := try clear WG; try clear ord_perm; set_solver.
  Record shape (w : ws) : Prop := {
    sh_wf : wf (P w); sh_npo : npo (P w) = n; sh_kind : kindof (P w) = kd;
    sh_edges : forall r q, q ∈ edges (tb w) r -> r < n /\ rt w r = r /\ q < n;
    sh_stc : forall r q, q ∈ stc (tb w) r -> r < n /\ rt w r = r /\ q < n;
    sh_ldc : forall r q, q ∈ ldc (tb w) r -> r < n /\ rt w r = r /\ q < n;
    sh_clc : forall r k, k ∈ clc (tb w) r -> r < n /\ rt w r = r;
    sh_newE : forall a b, (a, b) ∈ newE w -> a < n /\ b < n;
    sh_wl : forall x, x ∈ wl w -> x < n;
    sh_newp : dp c = true -> forall r y, y ∈ newp (df w) r -> y ∈ pts (P w) r;
    sh_ref : forall i x, refroot (cy w) i = Some x -> x < n }.
  Definition vld (y : nat) : Prop := y < n /\ kd y <> Register.

  Definition changed (w w' : ws) (r : nat) : Prop :=
    pts (P w') r <> pts (P w) r \/ (r ∈ fpe (P w') /\ r ∉ fpe (P w)) \/ (r ∈ fext (P w') /\ r ∉ fext (P w)).
  (** a step that adds pointees and flags, queues edges, and pushes what it changes;
      the pointees of the nodes in [I] are left alone *)
  Record sstep (I : nat -> Prop) (w w' : ws) : Prop := {
    ss_le : le (P w) (P w');
    ss_tb : tb w' = tb w; ss_cy : cy w' = cy w;
    ss_newE : newE w ⊆ newE w'; ss_wl : wl w ⊆ wl w';
    ss_push : forall r, r ∈ wl w' -> r ∈ wl w \/ (rt w r = r /\ changed w w' r);
    ss_dirty : forall r, changed w w' r -> r ∈ wl w';
    ss_prot : forall r, I r -> pts (P w') r = pts (P w) r;
    ss_tracked : tracked (df w') = tracked (df w);
    ss_extseen : extseen (df w') = extseen (df w);
    ss_peseen : peseen (df w') = peseen (df w);
    ss_new1 : dp c = true -> forall r y, r ∈ tracked (df w) -> y ∈ pts (P w') r -> y ∉ pts (P w) r -> y ∈ newp (df w') r;
    ss_new2 : forall r, newp (df w) r ⊆ newp (df w') r;
    ss_new3 : forall r y, y ∈ newp (df w') r -> y ∈ newp (df w) r \/ (y ∈ pts (P w') r /\ y ∉ pts (P w) r);
    ss_fn : forall f, f ∈ functions G -> Es w' f -> ~ Es w f ->
      (forall i, Some i ∈ fargs G f -> E w' i) /\ (forall i, Some i ∈ fresults G f -> Pp w' i) }.
  Definition step I (w w' : ws) : Prop := shape w' /\ sstep I w w'.
  Definition ok I (m : ws -> ws) : Prop := forall w, shape w -> step I w (m w).
  Notation rt := (WModel.rt).

  Lemma rt_le w w' i : le (P w) (P w') -> rt w' i = rt w i.
  Proof using. intros L. apply (static_root _ _ i (le_static _ _ L)). Qed.
  Lemma E_le w w' i : le (P w) (P w') -> E w i -> E w' i.
  Proof using. intros L. unfold E. rewrite (rt_le w w' i L). apply (le_ext _ _ L). Qed.
  Lemma Pp_le w w' i : le (P w) (P w') -> Pp w i -> Pp w' i.
  Proof using. intros L. unfold Pp. rewrite (rt_le w w' i L). apply (le_pe _ _ L). Qed.
  Lemma Es_le w w' i : le (P w) (P w') -> Es w i -> Es w' i.
  Proof using. intros L. apply (le_esc _ _ L). Qed.
  Lemma Pt_le w w' i y : le (P w) (P w') -> Pt w i y -> Pt w' i y.
  Proof using. intros L. unfold Pt, pset. fold (rt w' i) (rt w i). rewrite (rt_le w w' i L). apply (le_pts _ _ L). Qed.
  Lemma So_le w w' i y : le (P w) (P w') -> So w i y -> So w' i y.
  Proof using. intros L [[A B]|A]; [left; split; [eapply E_le|eapply Es_le]; eauto|right; eapply Pt_le; eauto]. Qed.

  Lemma changed_dec w w' r : changed w w' r \/ ~ changed w w' r.
  Proof using.
    unfold changed. destruct (decide (pts (P w') r = pts (P w) r)); [|auto].
    destruct (decide (r ∈ fpe (P w'))), (decide (r ∈ fpe (P w))), (decide (r ∈ fext (P w'))), (decide (r ∈ fext (P w))); tauto.
  Qed.
  Lemma changed_trans w1 w2 w3 r : le (P w1) (P w2) -> le (P w2) (P w3) -> changed w1 w3 r <-> changed w1 w2 r \/ changed w2 w3 r.
  Proof using.
    intros L1 L2. pose proof (le_pe _ _ L1 r). pose proof (le_pe _ _ L2 r). pose proof (le_ext _ _ L1 r). pose proof (le_ext _ _ L2 r).
    pose proof (le_pts _ _ L1 r) as A. pose proof (le_pts _ _ L2 r) as B. unfold changed. split.
    - intros [H3|[H3|H3]].
      + destruct (decide (pts (P w2) r = pts (P w1) r)); [|auto]. right. left. congruence.
      + destruct (decide (r ∈ fpe (P w2))); tauto.
      + destruct (decide (r ∈ fext (P w2))); tauto.
    - intros [[H3|[H3|H3]]|[H3|[H3|H3]]]; [| |tauto| |tauto|tauto]; [|tauto|].
      + left. intros e. apply H3. rewrite e in B. apply (anti_symm (⊆)); auto.
      + left. intros e. apply H3. rewrite <- e in A. apply (anti_symm (⊆)); auto.
  Qed.
  Lemma ss_refl I w : sstep I w w.
  Proof using.
    clear WG. clear n kd ord_perm. split; try reflexivity; try (intros; tauto).
    - apply le_refl.
    - intros r [H|[[H1 H2]|[H1 H2]]]; tauto.
  Qed.
  Lemma ss_trans I w1 w2 w3 : sstep I w1 w2 -> sstep I w2 w3 -> sstep I w1 w3.
  Proof using.
    intros A B. pose proof (ss_le _ _ _ A) as L1. pose proof (ss_le _ _ _ B) as L2. split.
    - eapply le_trans; eauto.
    - rewrite (ss_tb _ _ _ B). apply (ss_tb _ _ _ A).
    - rewrite (ss_cy _ _ _ B). apply (ss_cy _ _ _ A).
    - etrans; [apply (ss_newE _ _ _ A)|apply (ss_newE _ _ _ B)].
    - etrans; [apply (ss_wl _ _ _ A)|apply (ss_wl _ _ _ B)].
    - intros r H. rewrite (changed_trans w1 w2 w3) by auto. destruct (ss_push _ _ _ B r H) as [H1|[H1 H2]].
      + destruct (ss_push _ _ _ A r H1) as [|[]]; auto.
      + rewrite (rt_le _ _ _ L1) in H1. auto.
    - intros r H. apply (changed_trans w1 w2 w3) in H as [H|H]; auto; [|apply (ss_dirty _ _ _ B); auto].
      apply (ss_wl _ _ _ B), (ss_dirty _ _ _ A); auto.
    - intros r H. rewrite (ss_prot _ _ _ B r H). apply (ss_prot _ _ _ A r H).
    - rewrite (ss_tracked _ _ _ B). apply (ss_tracked _ _ _ A).
    - rewrite (ss_extseen _ _ _ B). apply (ss_extseen _ _ _ A).
    - rewrite (ss_peseen _ _ _ B). apply (ss_peseen _ _ _ A).
    - intros D r y T H1 H2. destruct (decide (y ∈ pts (P w2) r)) as [H3|H3].
      + apply (ss_new2 _ _ _ B). apply (ss_new1 _ _ _ A); auto.
      + apply (ss_new1 _ _ _ B); auto. rewrite (ss_tracked _ _ _ A). auto.
    - intros r. etrans; [apply (ss_new2 _ _ _ A)|apply (ss_new2 _ _ _ B)].
    - intros r y H. destruct (ss_new3 _ _ _ B r y H) as [H1|[H1 H2]].
      + destruct (ss_new3 _ _ _ A r y H1) as [|[]]; auto. right. split; auto. apply (le_pts _ _ L2); auto.
      + right. split; auto. intros H3. apply H2, (le_pts _ _ L1). auto.
    - intros f Hf H1 H2. destruct (decide (f ∈ fesc (P w2))) as [H3|H3].
      + destruct (ss_fn _ _ _ A f Hf H3 H2) as [X Y]. split; intros i Hi; [eapply E_le|eapply Pp_le]; eauto.
      + apply (ss_fn _ _ _ B); auto.
  Qed.
  Lemma step_refl I w : shape w -> step I w w.
  Proof using. intros. split; auto. apply ss_refl. Qed.
  Lemma step_trans I w1 w2 w3 : step I w1 w2 -> step I w2 w3 -> step I w1 w3.
  Proof using. intros [A B] [C D]. split; auto. eapply ss_trans; eauto. Qed.
  Lemma ok_comp I m1 m2 : ok I m1 -> ok I m2 -> ok I (fun w => m2 (m1 w)).
  Proof using. intros A B w H. eapply step_trans; [apply A; auto|]. apply B. apply A; auto. Qed.
  Lemma ok_id I : ok I (fun w => w).
  Proof using. intros w H. apply step_refl; auto. Qed.
  Lemma ok_wfor {A} I (l : list A) f : (forall x, x ∈ l -> ok I (f x)) -> ok I (wfor l f).
  Proof using.
    unfold wfor. induction l as [|x l IH]; intros H; cbn [fold_left]; [apply ok_id|].
    apply (ok_comp I (f x)); [apply H; left|]. apply IH. intros. apply H. right. auto.
  Qed.
  (** a property that survives simple steps *)
  Definition stable (Q : ws -> Prop) : Prop := forall w w', le (P w) (P w') -> newE w ⊆ newE w' -> tb w' = tb w -> Q w -> Q w'.
  Lemma ss_stable I Q w w' : stable Q -> sstep I w w' -> Q w -> Q w'.
  Proof using. intros S A. apply S; [apply (ss_le _ _ _ A)|apply (ss_newE _ _ _ A)|apply (ss_tb _ _ _ A)]. Qed.
  Lemma est_wfor {A} I (l : list A) f (Q : A -> ws -> Prop) : (forall x, x ∈ l -> ok I (f x)) -> (forall x, stable (Q x)) ->
    (forall x w, x ∈ l -> shape w -> Q x (f x w)) -> forall w x, shape w -> x ∈ l -> Q x (wfor l f w).
  Proof using.
    unfold wfor. induction l as [|a l IH]; intros H S K w x Hw Hx; [inversion Hx|]. cbn [fold_left].
    assert (H' : forall x, x ∈ l -> ok I (f x)) by (intros; apply H; right; auto).
    assert (Ha : step I w (f a w)) by (apply H; auto; left).
    inversion Hx; subst.
    - refine (ss_stable I _ _ _ (S a) (proj2 (ok_wfor I l f H' _ (proj1 Ha))) _). apply K; auto; left.
    - apply IH; auto; [|apply Ha]. intros. apply K; auto. right; auto.
  Qed.
  Lemma shape_tickw w : shape w -> shape (tickw w).
  Proof using. intros []. split; auto. unfold tickw, setP. cbn [P]. eapply wf_eqv; [eassumption|apply eqv_bump]. Qed.
  Lemma ok_tickw I : ok I tickw.
  Proof using.
    intros w H. split; [apply shape_tickw; auto|]. destruct (ss_refl I w). split; auto.
    unfold tickw, setP. cbn [P]. apply eqv_le, eqv_bump.
  Qed.
  Lemma items_in S w x : x ∈ items ord S w <-> x ∈ S.
  Proof using ord_perm. unfold items. rewrite (ord_perm _ _ _). apply elem_of_elements. Qed.
  Lemma ok_wforset I (S : gset nat) f : (forall x, x ∈ S -> ok I (f x)) -> ok I (wforset ord S f).
  Proof using ord_perm.
    intros H w Hw. unfold wforset. eapply step_trans; [apply ok_tickw; auto|]. apply ok_wfor; [|apply shape_tickw; auto].
    intros x Hx. apply H. eapply items_in; eauto.
  Qed.
  Lemma est_wforset I (S : gset nat) f (Q : nat -> ws -> Prop) : (forall x, x ∈ S -> ok I (f x)) -> (forall x, stable (Q x)) ->
    (forall x w, x ∈ S -> shape w -> Q x (f x w)) -> forall w x, shape w -> x ∈ S -> Q x (wforset ord S f w).
  Proof using ord_perm.
    intros H SQ K w x Hw Hx. unfold wforset. apply (est_wfor I); auto; [| |apply shape_tickw; auto|].
    - intros y Hy. apply H. eapply items_in; eauto.
    - intros y w' Hy. apply K. eapply items_in; eauto.
    - apply items_in; auto.
  Qed.
  Lemma stable_E i : stable (fun w => E w i).
  Proof using. intros w w' L _ _. apply E_le; auto. Qed.
  Lemma stable_Pp i : stable (fun w => Pp w i).
  Proof using. intros w w' L _ _. apply Pp_le; auto. Qed.
  Lemma stable_Es i : stable (fun w => Es w i).
  Proof using. intros w w' L _ _. apply Es_le; auto. Qed.

  Lemma rt_lt w i : shape w -> i < n -> rt w i < n.
  Proof using. intros H Hi. rewrite <- (sh_npo w H). apply root_lt; [apply H|rewrite (sh_npo w H); auto]. Qed.
  Lemma rt_rt w i : shape w -> i < n -> rt w (rt w i) = rt w i.
  Proof using. intros H Hi. apply root_root; [apply H|rewrite (sh_npo w H); auto]. Qed.
  Lemma pts_vld w r y : shape w -> y ∈ pts (P w) r -> vld y.
  Proof using. intros H Hy. apply (wf_pts _ (sh_wf w H)) in Hy. rewrite (sh_npo w H), (sh_kind w H) in Hy. auto. Qed.
  Lemma root_wfr w i : shape w -> i < n -> root (P w) (root (P w) i) = root (P w) i.
  Proof using. apply rt_rt. Qed.

  (** *** the primitive steps *)
  Lemma mark_pe_push_eq i w : shape w -> i < n -> mark_pe_push i w =
    if decide (rt w i ∈ fpe (P w)) then w else push (rt w i) (setP (set_pe ({[rt w i]} ∪ fpe (P w)) (P w)) w).
  Proof using.
    intros H Hi. unfold mark_pe_push, mark_pe. fold (rt w (rt w i)). rewrite (rt_rt w i H Hi).
    destruct (decide _); auto. destruct w; auto.
  Qed.
  Lemma mark_ext_push_eq i w : shape w -> i < n -> mark_ext_push i w =
    if decide (rt w i ∈ fext (P w)) then w else push (rt w i) (setP (set_ext ({[rt w i]} ∪ fext (P w)) (P w)) w).
  Proof using.
    intros H Hi. unfold mark_ext_push, mark_ext. fold (rt w (rt w i)). rewrite (rt_rt w i H Hi).
    destruct (decide _); auto. destruct w; auto.
  Qed.
  Lemma shape_setP w p : shape w -> wf p -> le (P w) p -> shape (setP p w).
  Proof using.
    intros [] W L. pose proof (fun i => static_root _ _ i (le_static _ _ L)) as R. destruct (le_static _ _ L).
    split; cbn [P tb df cy newE wl setP]; auto; try congruence; try (unfold WModel.rt in *; cbn [P setP]; intros; rewrite R; eauto).
    intros D r y H. apply (le_pts _ _ L). auto.
  Qed.
  Lemma shape_push w x : shape w -> x < n -> shape (push x w).
  Proof using.
    intros [] Hx. unfold push. split; cbn [P tb df cy newE wl setW]; auto.
    intros y. rewrite elem_of_union, elem_of_singleton. intros [->|]; auto.
  Qed.
  Lemma wf_flag_pe w r : shape w -> r < n -> rt w r = r -> wf (set_pe ({[r]} ∪ fpe (P w)) (P w)) /\ le (P w) (set_pe ({[r]} ∪ fpe (P w)) (P w)).
  Proof using.
    intros H Hr E. split.
    - assert (K := wf_mark_pe r (P w) (sh_wf w H)). rewrite (sh_npo w H) in K. specialize (K Hr). unfold mark_pe in K.
      fold (rt w r) in K. rewrite E in K. destruct (decide _) as [e|]; auto. cbn [fst] in K.
      replace ({[r]} ∪ fpe (P w)) with (fpe (P w)) by ssol. destruct (P w); auto.
    - split; [split; reflexivity|..]; cbn; auto; ssol.
  Qed.
  Lemma wf_flag_ext w r : shape w -> r < n -> rt w r = r -> wf (set_ext ({[r]} ∪ fext (P w)) (P w)) /\ le (P w) (set_ext ({[r]} ∪ fext (P w)) (P w)).
  Proof using.
    intros H Hr E. split.
    - assert (K := wf_mark_ext r (P w) (sh_wf w H)). rewrite (sh_npo w H) in K. specialize (K Hr). unfold mark_ext in K.
      fold (rt w r) in K. rewrite E in K. destruct (decide _) as [e|]; auto. cbn [fst] in K.
      replace ({[r]} ∪ fext (P w)) with (fext (P w)) by ssol. destruct (P w); auto.
    - split; [split; reflexivity|..]; cbn; auto; ssol.
  Qed.
  Lemma ok_mark_pe_push I i : i < n -> ok I (mark_pe_push i).
  Proof using.
    intros Hi w H. rewrite mark_pe_push_eq by auto. destruct (decide _) as [|ne]; [apply step_refl; auto|].
    pose proof (rt_lt w i H Hi) as L. destruct (wf_flag_pe w (rt w i) H L (rt_rt w i H Hi)) as [W Le].
    split; [apply shape_push; auto; apply shape_setP; auto|]. split; cbn; auto; try ssol.
    - intros r. rewrite elem_of_union, elem_of_singleton. intros [->|]; auto. right. split; [apply rt_rt; auto|].
      right. left. cbn. ssol.
    - intros r [C|[C|C]]; cbn in C; ssol.
  Qed.
  Lemma ok_mark_ext_push I i : i < n -> ok I (mark_ext_push i).
  Proof using.
    intros Hi w H. rewrite mark_ext_push_eq by auto. destruct (decide _) as [|ne]; [apply step_refl; auto|].
    pose proof (rt_lt w i H Hi) as L. destruct (wf_flag_ext w (rt w i) H L (rt_rt w i H Hi)) as [W Le].
    split; [apply shape_push; auto; apply shape_setP; auto|]. split; cbn; auto; try ssol.
    - intros r. rewrite elem_of_union, elem_of_singleton. intros [->|]; auto. right. split; [apply rt_rt; auto|].
      right. right. cbn. ssol.
    - intros r [C|[C|C]]; cbn in C; ssol.
  Qed.
  Lemma est_mark_pe_push i w : shape w -> i < n -> Pp (mark_pe_push i w) i.
  Proof using.
    intros H Hi. rewrite mark_pe_push_eq by auto. destruct (decide _) as [|ne]; auto.
    unfold Pp. cbn. unfold WModel.rt. cbn [P push setW setP]. change (root (set_pe _ (P w)) i) with (rt w i). ssol.
  Qed.
  Lemma est_mark_ext_push i w : shape w -> i < n -> E (mark_ext_push i w) i.
  Proof using.
    intros H Hi. rewrite mark_ext_push_eq by auto. destruct (decide _) as [|ne]; auto.
    unfold E. cbn. unfold WModel.rt. cbn [P push setW setP]. change (root (set_ext _ (P w)) i) with (rt w i). ssol.
  Qed.

  (** *** links *)
  Definition Lk0 (w : ws) (a b : nat) : Prop :=
    rt w a = rt w b \/ (exists q, q ∈ edges (tb w) (rt w b) /\ rt w q = rt w a) \/ (E w a /\ Pp w b).
  Definition Lk (w : ws) (a b : nat) : Prop :=
    Lk0 w a b \/ exists x y, (x, y) ∈ newE w /\ rt w x = rt w a /\ rt w y = rt w b.
  Lemma stable_Lk0 a b : stable (fun w => Lk0 w a b).
  Proof using.
    intros w w' L _ T. pose proof (fun i => rt_le w w' i L) as R. intros [H|[(q & H1 & H2)|[H1 H2]]].
    - left. rewrite !R. auto.
    - right. left. exists q. rewrite T, !R. auto.
    - right. right. split; [eapply E_le|eapply Pp_le]; eauto.
  Qed.
  Lemma stable_Lk a b : stable (fun w => Lk w a b).
  Proof using.
    intros w w' L N T [H|(x & y & H1 & H2 & H3)]; [left; eapply stable_Lk0; eauto|].
    right. exists x, y. rewrite !(rt_le w w' _ L). auto.
  Qed.
  Lemma ok_queue_edge I a b : a < n -> b < n -> ok I (queue_edge a b).
  Proof using.
    intros Ha Hb w H. unfold queue_edge. destruct (decide _) as [|ne]; [apply step_refl; auto|].
    split.
    - destruct H as [? ? ? ? ? ? ? HN ? ? ?]. split; auto. cbn [newE setN]. intros x y. rewrite elem_of_union, elem_of_singleton.
      intros [H|]; auto. injection H as -> ->. split; [apply (rt_lt w a)|apply (rt_lt w b)]; auto; split; auto.
    - destruct (ss_refl I w). split; auto. cbn [newE setN]. ssol.
  Qed.
  Lemma est_queue_edge a b w : shape w -> a < n -> b < n -> Lk (queue_edge a b w) a b.
  Proof using.
    intros H Ha Hb. unfold queue_edge. destruct (decide _) as [[e|e]|ne].
    - left. left. auto.
    - left. right. left. exists (rt w a). split; auto. apply rt_rt; auto.
    - right. exists (rt w a), (rt w b). split; [cbn; ssol|]. split; [apply (rt_rt w a); auto|apply (rt_rt w b); auto].
  Qed.

  (** *** calls and escaped functions *)
  Definition Xc (w : ws) (k : nat) : Prop := (forall i, Some i ∈ cargs G k -> Pp w i) /\ (forall i, Some i ∈ couts G k -> E w i).
  Definition Ic (w : ws) (k f : nat) : Prop :=
    (forall i j, (Some i, Some j) ∈ zip (cargs G k) (fargs G f) -> Lk w j i) /\
    (forall i j, (Some i, Some j) ∈ zip (couts G k) (fresults G f) -> Lk w i j).
  Lemma stable_Xc k : stable (fun w => Xc w k).
  Proof using. intros w w' L N T [A B]. split; intros i Hi; [eapply Pp_le|eapply E_le]; eauto. Qed.
  Lemma stable_Ic k f : stable (fun w => Ic w k f).
  Proof using. intros w w' L N T [A B]. split; intros i j Hi; eapply stable_Lk; eauto. Qed.
  Lemma ok_wsome I l f : (forall i, Some i ∈ l -> ok I (f i)) -> ok I (wsome l f).
  Proof using. intros H. apply ok_wfor. intros [i|] Hi; [auto|apply ok_id]. Qed.
  Lemma est_wsome I l f (Q : nat -> ws -> Prop) : (forall i, Some i ∈ l -> ok I (f i)) -> (forall i, stable (Q i)) ->
    (forall i w, Some i ∈ l -> shape w -> Q i (f i w)) -> forall w i, shape w -> Some i ∈ l -> Q i (wsome l f w).
  Proof using.
    intros H S K w i Hw Hi.
    refine (est_wfor I l _ (fun o w => match o with Some i => Q i w | None => True end) _ _ _ w (Some i) Hw Hi).
    - intros [j|] Hj; [auto|apply ok_id].
    - intros [j|]; [auto|]. intros ? ? ? ? ? ?. auto.
    - intros [j|] w' Hj Hw'; auto.
  Qed.
  Lemma zip_in_l {A B} (l1 : list A) (l2 : list B) x y : (x, y) ∈ zip l1 l2 -> x ∈ l1 /\ y ∈ l2.
  Proof using.
    intros H. apply elem_of_list_lookup in H as [k H]. apply lookup_zip_with_Some in H as (a & b & [= -> ->] & H1 & H2).
    split; eapply elem_of_list_lookup_2; eauto.
  Qed.
  Lemma ok_wpairs I l1 l2 f : (forall i j, Some i ∈ l1 -> Some j ∈ l2 -> ok I (f i j)) -> ok I (wpairs l1 l2 f).
  Proof using.
    intros H. apply ok_wfor. intros [[i|] [j|]] Hi; try apply ok_id. apply zip_in_l in Hi. apply H; tauto.
  Qed.
  Lemma est_wpairs I l1 l2 f (Q : nat -> nat -> ws -> Prop) : (forall i j, Some i ∈ l1 -> Some j ∈ l2 -> ok I (f i j)) ->
    (forall i j, stable (Q i j)) -> (forall i j w, Some i ∈ l1 -> Some j ∈ l2 -> shape w -> Q i j (f i j w)) ->
    forall w i j, shape w -> (Some i, Some j) ∈ zip l1 l2 -> Q i j (wpairs l1 l2 f w).
  Proof using.
    intros H S K w i j Hw Hi.
    refine (est_wfor I (zip l1 l2) _ (fun o w => match o with (Some i, Some j) => Q i j w | _ => True end) _ _ _ w (Some i, Some j) Hw Hi).
    - intros [[i'|] [j'|]] Hj; try apply ok_id. apply zip_in_l in Hj. apply H; tauto.
    - intros [[i'|] [j'|]]; auto; intros ? ? ? ? ? ?; auto.
    - intros [[i'|] [j'|]] w' Hj Hw'; auto. apply zip_in_l in Hj. apply K; tauto.
  Qed.
  Lemma ok_wcalling_external I k : ok I (wcalling_external G k).
  Proof using WG.
    apply (ok_comp I (wsome (cargs G k) mark_pe_push)); apply ok_wsome; intros i Hi.
    - apply ok_mark_pe_push. eapply wg_cargs; eauto.
    - apply ok_mark_ext_push. eapply wg_couts; eauto.
  Qed.
  Lemma est_wcalling_external k w : shape w -> Xc (wcalling_external G k w) k.
  Proof using WG c.
    intros H. assert (A : forall i, Some i ∈ cargs G k -> i < n) by (intros; eapply wg_cargs; eauto).
    assert (B : forall i, Some i ∈ couts G k -> i < n) by (intros; eapply wg_couts; eauto).
    assert (O1 : ok (fun _ => False) (wsome (cargs G k) mark_pe_push)) by (apply ok_wsome; intros; apply ok_mark_pe_push; auto).
    assert (O2 : ok (fun _ => False) (wsome (couts G k) mark_ext_push)) by (apply ok_wsome; intros; apply ok_mark_ext_push; auto).
    destruct (O1 w H) as [H1 _]. split; intros i Hi; unfold wcalling_external.
    - eapply (ss_stable _ _ _ _ (stable_Pp i) (proj2 (O2 _ H1))).
      apply (est_wsome (fun _ => False) (cargs G k) mark_pe_push (fun i w => Pp w i)); auto using stable_Pp, ok_mark_pe_push, est_mark_pe_push.
    - apply (est_wsome (fun _ => False) (couts G k) mark_ext_push (fun i w => E w i)); auto using stable_E, ok_mark_ext_push, est_mark_ext_push.
  Qed.
  Lemma ok_wcalling_lambda I k f : ok I (wcalling_lambda G k f).
  Proof using WG.
    apply (ok_comp I (wpairs (cargs G k) (fargs G f) (fun i j => queue_edge j i))); apply ok_wpairs; intros i j Hi Hj; apply ok_queue_edge;
      solve [eapply wg_cargs; eauto|eapply wg_couts; eauto|eapply wg_fargs; eauto|eapply wg_fresults; eauto].
  Qed.
  Lemma est_wcalling_lambda k f w : shape w -> Ic (wcalling_lambda G k f w) k f.
  Proof using WG c.
    intros H.
    assert (A1 : forall i, Some i ∈ cargs G k -> i < n) by (intros; eapply wg_cargs; eauto).
    assert (A2 : forall i, Some i ∈ fargs G f -> i < n) by (intros; eapply wg_fargs; eauto).
    assert (A3 : forall i, Some i ∈ couts G k -> i < n) by (intros; eapply wg_couts; eauto).
    assert (A4 : forall i, Some i ∈ fresults G f -> i < n) by (intros; eapply wg_fresults; eauto).
    assert (O1 : ok (fun _ => False) (wpairs (cargs G k) (fargs G f) (fun i j => queue_edge j i))) by (apply ok_wpairs; intros; apply ok_queue_edge; auto).
    assert (O2 : ok (fun _ => False) (wpairs (couts G k) (fresults G f) queue_edge)) by (apply ok_wpairs; intros; apply ok_queue_edge; auto).
    destruct (O1 w H) as [H1 _]. split; intros i j Hi; unfold wcalling_lambda.
    - eapply (ss_stable _ _ _ _ (stable_Lk j i) (proj2 (O2 _ H1))).
      apply (est_wpairs (fun _ => False) _ _ _ (fun i j w => Lk w j i)); auto using stable_Lk; intros; [apply ok_queue_edge|apply est_queue_edge]; auto.
    - apply (est_wpairs (fun _ => False) _ _ _ (fun i j w => Lk w i j)); auto using stable_Lk; intros; [apply ok_queue_edge|apply est_queue_edge]; auto.
  Qed.
  Lemma ok_wescaped_function I f : ok I (wescaped_function G f).
  Proof using WG.
    apply (ok_comp I (wsome (fargs G f) (fun i w => if is_ext (P w) i then w else mark_ext_push i w))); apply ok_wsome; intros i Hi w H.
    - destruct (is_ext _ _); [apply step_refl; auto|]. apply ok_mark_ext_push; auto. eapply wg_fargs; eauto.
    - destruct (has_pe _ _); [apply step_refl; auto|]. apply ok_mark_pe_push; auto. eapply wg_fresults; eauto.
  Qed.
  Lemma est_wescaped_function f w : shape w ->
    (forall i, Some i ∈ fargs G f -> E (wescaped_function G f w) i) /\ (forall i, Some i ∈ fresults G f -> Pp (wescaped_function G f w) i).
  Proof using WG c.
    intros H.
    assert (A2 : forall i, Some i ∈ fargs G f -> i < n) by (intros; eapply wg_fargs; eauto).
    assert (A4 : forall i, Some i ∈ fresults G f -> i < n) by (intros; eapply wg_fresults; eauto).
    set (m1 := fun i w => if is_ext (P w) i then w else mark_ext_push i w).
    set (m2 := fun i w => if has_pe (P w) i then w else mark_pe_push i w).
    assert (K1 : forall i, Some i ∈ fargs G f -> ok (fun _ => False) (m1 i)).
    { intros i Hi w' H'. unfold m1. destruct (is_ext _ _); [apply step_refl; auto|]. apply ok_mark_ext_push; auto. }
    assert (K2 : forall i, Some i ∈ fresults G f -> ok (fun _ => False) (m2 i)).
    { intros i Hi w' H'. unfold m2. destruct (has_pe _ _); [apply step_refl; auto|]. apply ok_mark_pe_push; auto. }
    pose proof (ok_wsome _ _ _ K1) as O1. pose proof (ok_wsome _ _ _ K2) as O2.
    destruct (O1 w H) as [H1 _]. split; intros i Hi; unfold wescaped_function; fold m1 m2.
    - eapply (ss_stable _ _ _ _ (stable_E i) (proj2 (O2 _ H1))).
      apply (est_wsome (fun _ => False) (fargs G f) m1 (fun i w => E w i)); auto using stable_E.
      intros j w' Hj H'. unfold m1. destruct (is_ext (P w') j) eqn:Ex; [apply ext_iff in Ex; auto|apply est_mark_ext_push; auto].
    - apply (est_wsome (fun _ => False) (fresults G f) m2 (fun i w => Pp w i)); auto using stable_Pp.
      intros j w' Hj H'. unfold m2. destruct (has_pe (P w') j) eqn:Ex; [apply pe_iff in Ex; auto|apply est_mark_pe_push; auto].
  Qed.
End WStep.
