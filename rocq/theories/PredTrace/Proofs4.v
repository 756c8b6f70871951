From stdpp Require Import base list gmap numbers relations.
From Verif.PredTrace Require Import Model Spec Proofs1 Proofs2 Proofs3.

Definition parent (g : graph) (r o : nat) : Prop :=
  match rpar g r with RTop => False | RGamma outer _ _ | ROther outer => o = outer end.

(* a complete trace of a use *)
Definition canon (g : graph) (use : nat) (ty : nat) (st : tstate) : Prop :=
  ity g use = Some ty /\ exists fuel obs r, compute_and_record fuel g ty use (TState ∅ ∅ obs) = Some (r, st).

Lemma canon_det g use ty1 ty2 st1 st2 : canon g use ty1 st1 -> canon g use ty2 st2 -> ty1 = ty2 /\ ranges st1 = ranges st2.
Proof.
  intros [T1 (f1 & o1 & r1 & H1)] [T2 (f2 & o2 & r2 & H2)]. rewrite T1 in T2. injection T2 as <-. split; [reflexivity|].
  destruct (record_sim g ty1 f1 (f1 + f2) ltac:(lia) _ _ _ _ ∅ H1) as [o1' H1'].
  destruct (record_sim g ty1 f2 (f1 + f2) ltac:(lia) _ _ _ _ ∅ H2) as [o2' H2'].
  unfold setobs in H1', H2'. simpl in H1', H2'. rewrite H1' in H2'. injection H2' as _ H _. exact H.
Qed.

(* the caches hold complete traces of the current graph, and all regions they
   looked at are observed *)
Record coherent (g : graph) (t : tracer) : Prop := {
  co_assign use m : predAssignment t !! use = Some m -> exists ty st, canon g use ty st /\ ranges st = m /\
     forall i, is_Some (visited st !! i) -> iregion g i ∈ observers t /\ is_Some (ity g i);
  co_sat r req : predSat t !! r = Some req ->
     (forall p v, (p, v) ∈ req <-> guards g r p v) /\ forall a, rtc (parent g) r a -> a ∈ observers t
}.

Lemma coherent_fresh g : coherent g fresh.
Proof. split; intros k x H; unfold fresh in H; simpl in H; rewrite lookup_empty in H; discriminate. Qed.

Lemma coherent_more g t obs : coherent g t -> observers t ⊆ obs -> coherent g (Tracer (predAssignment t) (predSat t) obs).
Proof.
  intros [H1 H2] Hs. split.
  - intros use m Hm. destruct (H1 use m Hm) as (ty & st & Hc & Hr & Hi). exists ty, st. split; [exact Hc|]. split; [exact Hr|].
    intros i Hv. destruct (Hi i Hv) as [Ho Ht]. split; [apply Hs, Ho|exact Ht].
  - intros r req Hr. destruct (H2 r req Hr) as [Hg Ha]. split; [exact Hg|]. intros a Hp. apply Hs, Ha, Hp.
Qed.

Lemma get_sat_coherent g fuel : forall r t req t', coherent g t -> get_sat fuel g r t = Some (req, t') ->
  coherent g t' /\ observers t ⊆ observers t' /\ (forall p v, (p, v) ∈ req <-> guards g r p v) /\ (forall a, rtc (parent g) r a -> a ∈ observers t').
Proof.
  induction fuel as [|f IH]; intros r t req t' Hok H; simpl in H; [discriminate|].
  assert (Hsub : observers t ⊆ {[r]} ∪ observers t) by (intros x Hx; apply elem_of_union_r, Hx).
  assert (Hok0 := coherent_more g t _ Hok Hsub).
  set (t0 := Tracer (predAssignment t) (predSat t) ({[r]} ∪ observers t)) in *.
  destruct (predSat t !! r) as [req0|] eqn:E.
  - injection H as <- <-. split; [exact Hok0|]. split; [exact Hsub|]. destruct (co_sat g t Hok _ _ E) as [Hg Ha].
    split; [exact Hg|]. intros a Hp. apply Hsub, Ha, Hp.
  - assert (Hins : forall l t1, coherent g t1 -> (forall p v, (p, v) ∈ l <-> guards g r p v) -> (forall a, rtc (parent g) r a -> a ∈ observers t1) ->
        coherent g (Tracer (predAssignment t1) (<[r := l]> (predSat t1)) (observers t1))).
    { intros l t1 [A B] Hl Ha. split; [exact A|]. intros r' req' Hr'. cbn [predSat] in Hr'.
      destruct (decide (r = r')) as [Hd|Hd].
      - subst r'. rewrite lookup_insert in Hr'. injection Hr' as <-. split; [exact Hl|exact Ha].
      - rewrite lookup_insert_ne in Hr' by exact Hd. exact (B _ _ Hr'). }
    assert (Hr0 : r ∈ observers t0) by (apply elem_of_union_l, elem_of_singleton; reflexivity).
    destruct (rpar g r) as [|outer pred index|outer] eqn:Ep.
    + injection H as <- <-.
      assert (Hl : forall p v, (p, v) ∈ @nil (nat * nat) <-> guards g r p v).
      { intros p v. split; [intros Hn; apply elem_of_nil in Hn; destruct Hn|].
        intros Hg. apply guards_inv in Hg. rewrite Ep in Hg. destruct Hg. }
      assert (Ha : forall a, rtc (parent g) r a -> a ∈ observers t0).
      { intros a Hp. inversion Hp as [|x y z Hxy]; subst; [exact Hr0|]. unfold parent in Hxy. rewrite Ep in Hxy. destruct Hxy. }
      split; [apply (Hins [] t0); assumption|]. split; [exact Hsub|]. split; [exact Hl|exact Ha].
    + destruct (get_sat f g outer t0) as [[req1 t1]|] eqn:Es; [|discriminate].
      destruct (IH _ _ _ _ Hok0 Es) as (Hok1 & Hs1 & Hreq1 & Ha1). injection H as <- <-.
      assert (Hl : forall p v, (p, v) ∈ req1 ++ [(pred, index)] <-> guards g r p v).
      { intros p v. rewrite elem_of_app, elem_of_list_singleton. split.
        - intros [Hin|Heq]; [eapply guards_gamma; [exact Ep|apply Hreq1; exact Hin]|].
          injection Heq as -> ->. eapply guards_here. exact Ep.
        - intros Hg. apply guards_inv in Hg. rewrite Ep in Hg. destruct Hg as [[-> ->]|Hg]; [right; reflexivity|].
          left. apply Hreq1. exact Hg. }
      assert (Ha : forall a, rtc (parent g) r a -> a ∈ observers t1).
      { intros a Hp. inversion Hp as [|x y z Hxy Hyz]; subst; [apply Hs1, Hr0|].
        unfold parent in Hxy. rewrite Ep in Hxy. subst y. apply Ha1, Hyz. }
      split; [apply Hins; assumption|]. split; [intros x Hx; apply Hs1, Hsub, Hx|]. split; [exact Hl|exact Ha].
    + destruct (get_sat f g outer t0) as [[req1 t1]|] eqn:Es; [|discriminate].
      destruct (IH _ _ _ _ Hok0 Es) as (Hok1 & Hs1 & Hreq1 & Ha1). injection H as <- <-.
      assert (Hl : forall p v, (p, v) ∈ req1 <-> guards g r p v).
      { intros p v. rewrite Hreq1. split.
        - intros Hg. eapply guards_other; eauto.
        - intros Hg. apply guards_inv in Hg. rewrite Ep in Hg. exact Hg. }
      assert (Ha : forall a, rtc (parent g) r a -> a ∈ observers t1).
      { intros a Hp. inversion Hp as [|x y z Hxy Hyz]; subst; [apply Hs1, Hr0|].
        unfold parent in Hxy. rewrite Ep in Hxy. subst y. apply Ha1, Hyz. }
      split; [apply Hins; assumption|]. split; [intros x Hx; apply Hs1, Hsub, Hx|]. split; [exact Hl|exact Ha].
Qed.

Section Graph.
  Context (g : graph) (Hwf : wf g) (Hnl : no_loop_variables g).

  Lemma no_execution : execution g (fun _ => 0) (fun _ => False).
  Proof. split; intros; contradiction. Qed.

  (* everything a trace visits lies in observed regions *)
  Lemma trace_observed fuel ty use obs r st : ity g use = Some ty ->
    compute_and_record fuel g ty use (TState ∅ ∅ obs) = Some (r, st) ->
    (forall a, rtc (parent g) (iregion g use) a -> a ∈ obs) ->
    obs ⊆ observed st /\ forall i, is_Some (visited st !! i) -> iregion g i ∈ observed st /\ is_Some (ity g i).
  Proof.
    intros Hty H Hanc.
    assert (Hinit : inv g (fun _ => 0) (fun _ => False) ty use (TState ∅ ∅ obs)).
    { split; simpl; intros k x Hk; rewrite lookup_empty in Hk; discriminate. }
    destruct (record_ok g _ _ Hwf no_execution ty use fuel use _ _ _ Hinit Hty (rtc_refl _ _) H) as (Hi & _ & Hv).
    assert (Hkey : keyed (TState ∅ ∅ obs)).
    { intros k Hk. simpl in Hk. rewrite lookup_empty in Hk. destruct Hk; discriminate. }
    destruct (record_keyed g ty fuel _ _ _ _ Hkey H) as [Hk Ho]. simpl in Ho.
    split; [exact Ho|].
    assert (Hall : forall i, rtc (source g) use i -> forall a, rtc (parent g) (iregion g i) a -> a ∈ observed st).
    { intros i Hp. refine (rtc_ind_r (fun i => forall a, rtc (parent g) (iregion g i) a -> a ∈ observed st) use _ _ i Hp).
      - intros a Ha. apply Ho, Hanc, Ha.
      - intros x y Hux Hxy IH a Ha.
        assert (Hvy : is_Some (visited st !! y)).
        { eapply (closed_reaches g _ _ ty use st Hi); [rewrite Hv; eauto|]. eapply rtc_r; eauto. }
        destruct Hxy as [rs res Hd Hin|inp Hd|inp post pre Hd Hne|inp post pre Hd He|inp post Hd He];
          try (pose proof (Hnl (origin g x)) as Hl; rewrite Hd in Hl; destruct Hl; fail).
        + destruct (wf_gamma g Hwf _ _ _ Hd Hin) as (Hst & pred & index & Hpar).
          inversion Ha as [|x1 y1 z1 Hxy Hyz]; subst.
          * destruct Hvy as [ry Hry]. destruct (proj1 Hi _ _ Hry) as (_ & _ & _ & _ & _ & Hrec).
            destruct (Hrec Hst) as (rr & Hrr & _). apply Hk. rewrite Hrr. eauto.
          * unfold parent in Hxy. rewrite Hpar in Hxy. subst y1. apply IH, Hyz.
        + destruct (wf_entry g Hwf _ _ Hd) as (pred & index & Hpar).
          apply IH. eapply rtc_l; [|exact Ha]. unfold parent. rewrite Hpar. reflexivity. }
    intros i [ri Hri]. destruct (proj1 Hi _ _ Hri) as (Ht & _ & Hr & _). split; [|rewrite Ht; eauto].
    apply (Hall i Hr), rtc_refl.
  Qed.

  (* the answer for one predicate and one value *)
  Definition answers (org p v : nat) (b : bool) : Prop :=
    exists ty st, canon g p ty st /\ allows (default (create_unknown ty) (ranges st !! org)) v = b.

  Lemma answers_det org p v b1 b2 : answers org p v b1 -> answers org p v b2 -> b1 = b2.
  Proof.
    intros (ty1 & st1 & C1 & <-) (ty2 & st2 & C2 & <-). destruct (canon_det _ _ _ _ _ _ C1 C2) as [-> ->]. reflexivity.
  Qed.

  Lemma get_assign_coherent fuel org p t r t' ty : coherent g t -> ity g p = Some ty ->
    (forall a, rtc (parent g) (iregion g p) a -> a ∈ observers t) ->
    get_assign fuel g org p t = Some (r, t') ->
    coherent g t' /\ observers t ⊆ observers t' /\ forall v, answers org p v (allows r v).
  Proof.
    intros Hok Hty Hanc H. unfold get_assign in H. rewrite Hty in H.
    destruct (predAssignment t !! p) as [m|] eqn:E.
    - injection H as <- <-. split; [exact Hok|]. split; [intros x Hx; exact Hx|].
      intros v. destruct (co_assign g t Hok _ _ E) as (ty' & st & Hc & <- & _). exists ty', st. split; [exact Hc|].
      destruct Hc as [Hty' _]. rewrite Hty in Hty'. injection Hty' as <-. reflexivity.
    - destruct (compute_and_record fuel g ty p (TState ∅ ∅ (observers t))) as [[rr st]|] eqn:Ec; [|discriminate].
      injection H as <- <-. destruct (trace_observed _ _ _ _ _ _ Hty Ec Hanc) as [Ho Hv].
      assert (Hc : canon g p ty st) by (split; [exact Hty|]; eauto).
      split; [|split].
      + destruct (coherent_more g t _ Hok Ho) as [A B]. split; [|exact B].
        intros use m Hm. cbn [predAssignment observers] in *. destruct (decide (p = use)) as [Hd|Hd].
        * subst use. rewrite lookup_insert in Hm. injection Hm as <-. exists ty, st. split; [exact Hc|]. split; [reflexivity|exact Hv].
        * rewrite lookup_insert_ne in Hm by exact Hd. exact (A _ _ Hm).
      + exact Ho.
      + intros v. exists ty, st. split; [exact Hc|reflexivity].
  Qed.

  Lemma check_all_coherent fuel org : forall req t b t', coherent g t ->
    (forall p v, (p, v) ∈ req -> (exists ty, ity g p = Some ty) /\ forall a, rtc (parent g) (iregion g p) a -> a ∈ observers t) ->
    check_all fuel g org req t = Some (b, t') ->
    coherent g t' /\ if b then forall p v, (p, v) ∈ req -> answers org p v true else exists p v, (p, v) ∈ req /\ answers org p v false.
  Proof.
    induction req as [|[p v] req IH]; intros t b t' Hok Hreq H; simpl in H.
    - injection H as <- <-. split; [exact Hok|]. intros p v Hin. apply elem_of_nil in Hin. destruct Hin.
    - destruct (get_assign fuel g org p t) as [[r t1]|] eqn:E; [|discriminate].
      destruct (Hreq p v (elem_of_list_here _ _)) as [[ty Hp] Hanc].
      destruct (get_assign_coherent _ _ _ _ _ _ _ Hok Hp Hanc E) as (Hok1 & Hs1 & Hans). specialize (Hans v).
      destruct (allows r v) eqn:Ea.
      + destruct (IH t1 b t' Hok1) as [Hok2 Hb].
        { intros q w Hq. destruct (Hreq q w) as [Hq1 Hq2]; [right; exact Hq|]. split; [exact Hq1|]. intros a Ha. apply Hs1, Hq2, Ha. }
        { exact H. }
        split; [exact Hok2|]. destruct b.
        * intros q w Hq. apply elem_of_cons in Hq as [Heq|Hq]; [injection Heq as -> ->; exact Hans|exact (Hb q w Hq)].
        * destruct Hb as (q & w & Hq & Hb). exists q, w. split; [right; exact Hq|exact Hb].
      + injection H as <- <-. split; [exact Hok1|]. exists p, v. split; [left|exact Hans].
  Qed.

  Lemma guards_parent r p v : guards g r p v -> rtc (parent g) r (iregion g p).
  Proof.
    induction 1 as [r outer pred v H|r outer q w pred v H Hg IH|r outer pred v H Hg IH].
    - apply rtc_once. unfold parent. rewrite H. exact (proj1 (wf_pred g Hwf _ _ _ _ H)).
    - eapply rtc_l; [|exact IH]. unfold parent. rewrite H. reflexivity.
    - eapply rtc_l; [|exact IH]. unfold parent. rewrite H. reflexivity.
  Qed.

  Lemma check_coherent fuel org target t b t' : coherent g t -> check fuel g org target t = Some (b, t') ->
    coherent g t' /\ if b then forall p v, guards g target p v -> answers org p v true else exists p v, guards g target p v /\ answers org p v false.
  Proof.
    intros Hok H. unfold check in H. destruct (get_sat fuel g target t) as [[req t1]|] eqn:E; [|discriminate].
    destruct (get_sat_coherent g _ _ _ _ _ Hok E) as (Hok1 & _ & Hreq & Hanc).
    destruct (check_all_coherent fuel org req t1 b t' Hok1) as [Hok2 Hb].
    { intros p v Hin. apply Hreq in Hin. split.
      - destruct (guards_typed g Hwf _ _ _ Hin) as (ty & Hty & _). exists ty. exact Hty.
      - intros a Ha. apply Hanc. etransitivity; [exact (guards_parent _ _ _ Hin)|exact Ha]. }
    { exact H. }
    split; [exact Hok2|]. destruct b.
    - intros p v Hg. apply Hb, Hreq, Hg.
    - destruct Hb as (p & v & Hin & Hb). exists p, v. split; [apply Hreq; exact Hin|exact Hb].
  Qed.
End Graph.

Lemma guards_divert g i o r p v : guards (divert g i o) r p v <-> guards g r p v.
Proof.
  split; intros H.
  - induction H as [r outer pred v H|r outer q w pred v H Hg IH|r outer pred v H Hg IH];
      [eapply guards_here|eapply guards_gamma|eapply guards_other]; eauto.
  - induction H as [r outer pred v H|r outer q w pred v H Hg IH|r outer pred v H Hg IH];
      [eapply guards_here|eapply guards_gamma|eapply guards_other]; eauto.
Qed.

Lemma divert_coherent g i o t : no_loop_variables g -> coherent g t -> coherent (divert g i o) (on_input_change (divert g i o) i t).
Proof.
  intros Hnl Hok. unfold on_input_change. cbn [iregion ity divert].
  assert (Hkeep : (iregion g i ∈ observers t -> ity g i = None) -> coherent (divert g i o) t).
  { intros Hun. split.
    - intros use m Hm. destruct (co_assign g t Hok _ _ Hm) as (ty & st & [Hty (fuel & obs & r & H)] & Hr & Hv).
      exists ty, st. split; [|split; [exact Hr|exact Hv]]. split; [exact Hty|]. exists fuel, obs, r.
      apply record_transfer; [exact Hnl|exact H|].
      destruct (visited st !! i) as [x|] eqn:E; [|reflexivity]. exfalso.
      destruct (Hv i) as [H1 H2]; [rewrite E; eauto|]. rewrite (Hun H1) in H2. destruct H2; discriminate.
    - intros r req Hr. destruct (co_sat g t Hok _ _ Hr) as [Hg Ha]. split; [|exact Ha].
      intros p v. rewrite guards_divert. apply Hg. }
  destruct (decide (iregion g i ∈ observers t)) as [Hin|Hin]; [|apply Hkeep; contradiction].
  destruct (ity g i) as [n|] eqn:E; [|apply Hkeep; intros _; reflexivity].
  split; intros k x H; unfold clear in H; simpl in H; rewrite lookup_empty in H; discriminate.
Qed.

Lemma history_coherent g0 g t : history g0 g t -> no_loop_variables g0 -> no_loop_variables g /\ coherent g t.
Proof.
  induction 1 as [|fuel org target g t b t' Hh IH Hwf H|i o g t Hh IH]; intros Hnl.
  - split; [exact Hnl|apply coherent_fresh].
  - destruct (IH Hnl) as [Hn Hok]. split; [exact Hn|]. exact (proj1 (check_coherent g Hwf Hn _ _ _ _ _ _ Hok H)).
  - destruct (IH Hnl) as [Hn Hok]. split; [exact Hn|]. apply divert_coherent; assumption.
Qed.

(* Without loop variables, whatever was asked and changed before, the check
   answers what a new object would.  Missing: with loop variables it does not
   (check_stale_refuted); the creation and the destruction of nodes are not
   modelled. *)
Theorem check_fresh_partial g0 g t fuel fuel' org target b b' t1 t2 :
  history g0 g t -> no_loop_variables g0 -> wf g ->
  check fuel g org target t = Some (b, t1) -> check fuel' g org target fresh = Some (b', t2) -> b = b'.
Proof.
  intros Hh Hnl Hwf H1 H2. destruct (history_coherent _ _ _ Hh Hnl) as [Hn Hok].
  destruct (check_coherent g Hwf Hn _ _ _ _ _ _ Hok H1) as [_ A].
  destruct (check_coherent g Hwf Hn _ _ _ _ _ _ (coherent_fresh g) H2) as [_ B].
  destruct b, b'; try reflexivity; exfalso.
  - destruct B as (p & v & Hg & B). pose proof (answers_det g _ _ _ _ _ (A p v Hg) B). discriminate.
  - destruct A as (p & v & Hg & A). pose proof (answers_det g _ _ _ _ _ (B p v Hg) A). discriminate.
Qed.
