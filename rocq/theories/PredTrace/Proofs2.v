From stdpp Require Import base list gmap numbers relations.
From Verif.PredTrace Require Import Model Spec Proofs1.

Lemma guards_inv g r p v : guards g r p v ->
  match rpar g r with
  | RTop => False
  | RGamma outer pred index => (p = pred /\ v = index) \/ guards g outer p v
  | ROther outer => guards g outer p v
  end.
Proof.
  intros [outer pred w H|outer q w pred u H Hg|outer pred u H Hg]; rewrite H.
  - left. split; reflexivity.
  - right. exact Hg.
  - exact Hg.
Qed.

Lemma on_trace_reach g r i : on_trace g r i <-> exists j, rtc (source g) i j /\ istruct g j = true /\ iregion g j = r.
Proof.
  split.
  - induction 1 as [i Hs Hi|i j Hij Hj IH].
    + exists i. split; [apply rtc_refl|]. split; assumption.
    + destruct IH as (k & Hk & Hk'). exists k. split; [eapply rtc_l; eauto|exact Hk'].
  - intros (j & Hj & Hs & Hr). induction Hj as [x|x y z Hxy Hyz IH].
    + apply on_here; assumption.
    + eapply on_step; [exact Hxy|]. apply IH; assumption.
Qed.

Section Run.
  Context (g : graph) (val : nat -> nat) (ent : nat -> Prop).
  Context (Hwf : wf g) (Hex : execution g val ent).

  Definition good (use ty : nat) (m : gmap nat (list bool)) : Prop :=
    exists st, inv g val ent ty use st /\ is_Some (visited st !! use) /\ ranges st = m.

  Definition tracer_ok (t : tracer) : Prop :=
    (forall use m, predAssignment t !! use = Some m -> exists ty, ity g use = Some ty /\ good use ty m) /\
    (forall r req, predSat t !! r = Some req -> forall p v, (p, v) ∈ req <-> guards g r p v).

  (* what a range says that the caches answer *)
  Definition says (region use ty : nat) (r : range) : Prop :=
    length r = ty /\
    (ent region -> forall res, rtc (source g) use res -> istruct g res = true -> iregion g res = region -> allows r (val (origin g res)) = true) /\
    (on_trace g region use \/ r = create_unknown ty).

  Lemma good_says use ty m region : good use ty m ->
    says region use ty (default (create_unknown ty) (m !! region)).
  Proof.
    intros (st & Hi & Hu & <-). split; [|split].
    - destruct (ranges st !! region) as [rr|] eqn:E; [exact (proj1 (proj2 Hi _ _ E))|apply replicate_length].
    - intros He res Hr Hs Hreg. destruct (closed_reaches g val ent ty use st Hi Hu res Hr) as [rv Hv].
      destruct (proj1 Hi _ _ Hv) as (_ & _ & _ & Hval & _ & Hrec).
      destruct (Hrec Hs) as (rr & Hrr & Hb). rewrite Hreg in Hrr. rewrite Hrr. simpl.
      apply Hb, Hval. rewrite Hreg. exact He.
    - destruct (ranges st !! region) as [rr|] eqn:E; [|right; reflexivity].
      left. destruct (proj2 Hi _ _ E) as (_ & j & [rj Hj] & Hs & Hreg).
      apply on_trace_reach. exists j. split; [|split; assumption].
      exact (proj1 (proj2 (proj2 (proj1 Hi _ _ Hj)))).
  Qed.

  Lemma get_assign_ok fuel region use t r t' ty : tracer_ok t -> ity g use = Some ty ->
    get_assign fuel g region use t = Some (r, t') -> tracer_ok t' /\ says region use ty r.
  Proof.
    intros Hok Hty H. unfold get_assign in H. rewrite Hty in H.
    destruct (predAssignment t !! use) as [m|] eqn:E.
    - injection H as <- <-. split; [exact Hok|]. destruct (proj1 Hok _ _ E) as (ty' & Hty' & Hg).
      rewrite Hty in Hty'. injection Hty' as <-. apply good_says. exact Hg.
    - destruct (compute_and_record fuel g ty use (TState ∅ ∅ (observers t))) as [[rr st]|] eqn:Ec; [|discriminate].
      injection H as <- <-.
      assert (Hinit : inv g val ent ty use (TState ∅ ∅ (observers t))).
      { split; simpl; intros k x Hk; rewrite lookup_empty in Hk; discriminate. }
      destruct (record_ok g val ent Hwf Hex ty use fuel use _ _ _ Hinit Hty (rtc_refl _ _) Ec) as (Hi & _ & Hv).
      assert (Hg : good use ty (ranges st)).
      { exists st. split; [exact Hi|]. split; [rewrite Hv; eauto|reflexivity]. }
      split; [|apply good_says; exact Hg].
      split; [|exact (proj2 Hok)]. intros use' m Hm. cbn [predAssignment] in Hm.
      destruct (decide (use = use')) as [Hd|Hd].
      + subst use'. rewrite lookup_insert in Hm. injection Hm as <-. exists ty. split; assumption.
      + rewrite lookup_insert_ne in Hm by exact Hd. exact (proj1 Hok _ _ Hm).
  Qed.

  Lemma get_sat_ok fuel : forall r t req t', tracer_ok t -> get_sat fuel g r t = Some (req, t') ->
    tracer_ok t' /\ forall p v, (p, v) ∈ req <-> guards g r p v.
  Proof.
    induction fuel as [|f IH]; intros r t req t' Hok H; simpl in H; [discriminate|].
    set (t0 := Tracer (predAssignment t) (predSat t) ({[r]} ∪ observers t)) in H.
    assert (Hok0 : tracer_ok t0) by exact Hok.
    destruct (predSat t !! r) as [req0|] eqn:E.
    - injection H as <- <-. split; [exact Hok0|]. exact (proj2 Hok _ _ E).
    - assert (Hins : forall l t1, tracer_ok t1 -> (forall p v, (p, v) ∈ l <-> guards g r p v) ->
          tracer_ok (Tracer (predAssignment t1) (<[r := l]> (predSat t1)) (observers t1))).
      { intros l t1 Ht1 Hl. split; [exact (proj1 Ht1)|]. intros r' req' Hr'. cbn [predSat] in Hr'.
        destruct (decide (r = r')) as [Hd|Hd].
        - subst r'. rewrite lookup_insert in Hr'. injection Hr' as <-. exact Hl.
        - rewrite lookup_insert_ne in Hr' by exact Hd. exact (proj2 Ht1 _ _ Hr'). }
      destruct (rpar g r) as [|outer pred index|outer] eqn:Ep.
      + injection H as <- <-.
        assert (Hl : forall p v, (p, v) ∈ @nil (nat * nat) <-> guards g r p v).
        { intros p v. split; [intros Hn; apply elem_of_nil in Hn; destruct Hn|].
          intros Hg. apply guards_inv in Hg. rewrite Ep in Hg. destruct Hg. }
        split; [apply Hins; assumption|exact Hl].
      + destruct (get_sat f g outer t0) as [[req1 t1]|] eqn:Es; [|discriminate].
        destruct (IH _ _ _ _ Hok0 Es) as [Hok1 Hreq1]. injection H as <- <-.
        assert (Hl : forall p v, (p, v) ∈ req1 ++ [(pred, index)] <-> guards g r p v).
        { intros p v. rewrite elem_of_app, elem_of_list_singleton. split.
          - intros [Hin|Heq]; [eapply guards_gamma; [exact Ep|apply Hreq1; exact Hin]|].
            injection Heq as -> ->. eapply guards_here. exact Ep.
          - intros Hg. apply guards_inv in Hg. rewrite Ep in Hg. destruct Hg as [[-> ->]|Hg]; [right; reflexivity|].
            left. apply Hreq1. exact Hg. }
        split; [apply Hins; assumption|exact Hl].
      + destruct (get_sat f g outer t0) as [[req1 t1]|] eqn:Es; [|discriminate].
        destruct (IH _ _ _ _ Hok0 Es) as [Hok1 Hreq1]. injection H as <- <-.
        assert (Hl : forall p v, (p, v) ∈ req1 <-> guards g r p v).
        { intros p v. rewrite Hreq1. split.
          - intros Hg. eapply guards_other; eauto.
          - intros Hg. apply guards_inv in Hg. rewrite Ep in Hg. exact Hg. }
        split; [apply Hins; assumption|exact Hl].
  Qed.

  Lemma check_all_ok fuel org : forall req t b t', tracer_ok t -> (forall p v, (p, v) ∈ req -> exists ty, ity g p = Some ty) ->
    check_all fuel g org req t = Some (b, t') ->
    tracer_ok t' /\
    if b then True
    else exists p v ty r, (p, v) ∈ req /\ ity g p = Some ty /\ says org p ty r /\ allows r v = false.
  Proof.
    induction req as [|[p v] req IH]; intros t b t' Hok Hty H; simpl in H.
    - injection H as <- <-. split; [exact Hok|exact I].
    - destruct (get_assign fuel g org p t) as [[r t1]|] eqn:E; [|discriminate].
      destruct (Hty p v (elem_of_list_here _ _)) as [ty Hp].
      destruct (get_assign_ok _ _ _ _ _ _ _ Hok Hp E) as [Hok1 Hsays].
      destruct (allows r v) eqn:Ea.
      + destruct (IH t1 b t' Hok1) as [Hok2 Hb]; [intros q w Hq; apply (Hty q w); right; exact Hq|exact H|].
        split; [exact Hok2|]. destruct b; [exact I|]. destruct Hb as (q & w & ty' & r' & Hin & Hb).
        exists q, w, ty', r'. split; [right; exact Hin|exact Hb].
      + injection H as <- <-. split; [exact Hok1|]. exists p, v, ty, r. split; [left|]. split; [exact Hp|]. split; assumption.
  Qed.

  Lemma guards_typed r p v : guards g r p v -> exists ty, ity g p = Some ty /\ v < ty.
  Proof.
    induction 1 as [r outer pred v H|r outer q w pred v H Hg IH|r outer pred v H Hg IH]; [|exact IH|exact IH].
    destruct (wf_pred g Hwf _ _ _ _ H) as (_ & n & Hn). exists n. exact Hn.
  Qed.

  Lemma guards_entered r p v : guards g r p v -> ent r -> ent (iregion g p) /\ val (origin g p) = v.
  Proof.
    induction 1 as [r outer pred v H|r outer q w pred v H Hg IH|r outer pred v H Hg IH]; intros Hr.
    - destruct (wf_pred g Hwf _ _ _ _ H) as (Ho & _).
      destruct (ex_gamma_region g val ent Hex _ _ _ _ H Hr) as [He Hv]. rewrite Ho. split; assumption.
    - apply IH. exact (proj1 (ex_gamma_region g val ent Hex _ _ _ _ H Hr)).
    - apply IH. exact (ex_other_region g val ent Hex _ _ H Hr).
  Qed.

  Lemma check_ok fuel org target t b t' : tracer_ok t -> check fuel g org target t = Some (b, t') ->
    tracer_ok t' /\
    if b then True else exists p v ty r, guards g target p v /\ ity g p = Some ty /\ says org p ty r /\ allows r v = false.
  Proof.
    intros Hok H. unfold check in H. destruct (get_sat fuel g target t) as [[req t1]|] eqn:E; [|discriminate].
    destruct (get_sat_ok _ _ _ _ _ Hok E) as [Hok1 Hreq].
    destruct (check_all_ok fuel org req t1 b t' Hok1) as [Hok2 Hb].
    { intros p v Hin. apply Hreq, guards_typed in Hin as (ty & Hty & _). exists ty. exact Hty. }
    { exact H. }
    split; [exact Hok2|]. destruct b; [exact I|]. destruct Hb as (p & v & ty & r & Hin & Hb).
    exists p, v, ty, r. split; [apply Hreq; exact Hin|exact Hb].
  Qed.

  Lemma queried_ok t : queried g t -> tracer_ok t.
  Proof.
    induction 1 as [|fuel org target t b t' Hq IH H|fuel region use t r t' Hq IH H].
    - split; simpl; intros k x Hk; unfold fresh in Hk; simpl in Hk; rewrite lookup_empty in Hk; discriminate.
    - exact (proj1 (check_ok _ _ _ _ _ _ IH H)).
    - destruct (ity g use) as [ty|] eqn:E; [exact (proj1 (get_assign_ok _ _ _ _ _ _ _ IH E H))|].
      unfold get_assign in H. rewrite E in H. injection H as <- <-. exact IH.
  Qed.
End Run.

(* The range of a region contains every value of the predicate that leaves the
   region when it is entered; it is the full range when none can. *)
Theorem assign_constraints_sound g val ent t fuel region use n r t' :
  wf g -> execution g val ent -> queried g t -> ity g use = Some n ->
  get_assign fuel g region use t = Some (r, t') ->
  (on_trace g region use -> ent region -> forall res, rtc (source g) use res -> istruct g res = true -> iregion g res = region ->
     allows r (val (origin g res)) = true) /\
  (~ on_trace g region use -> forall v, allows r v = true <-> v < n).
Proof.
  intros Hwf Hex Hq Hn H.
  destruct (get_assign_ok g val ent Hwf Hex _ _ _ _ _ _ _ (queried_ok g val ent Hwf Hex t Hq) Hn H) as [_ (Hl & Hs & Hu)].
  split; [intros _; exact Hs|]. intros Hno v. destruct Hu as [Hu| ->]; [contradiction|]. split; [|apply unknown_allows].
  unfold allows, create_unknown. intros Hv. destruct (decide (v < n)) as [Hd|Hd]; [exact Hd|].
  rewrite lookup_ge_None_2 in Hv by (rewrite replicate_length; lia). discriminate.
Qed.

(* When the check says no, the predicate value that led into the target was
   not the one the entered origin region handed on. *)
Theorem check_false_elsewhere g val ent t fuel org target t' :
  wf g -> execution g val ent -> queried g t -> ent org -> ent target ->
  check fuel g org target t = Some (false, t') ->
  exists pred v, guards g target pred v /\ val (origin g pred) = v /\ on_trace g org pred /\
    forall res, rtc (source g) pred res -> istruct g res = true -> iregion g res = org -> val (origin g res) <> v.
Proof.
  intros Hwf Hex Hq Ho Ht H.
  destruct (check_ok g val ent Hwf Hex _ _ _ _ _ _ (queried_ok g val ent Hwf Hex t Hq) H) as [_ (p & v & ty & r & Hg & Hty & (Hl & Hs & Hu) & Ha)].
  exists p, v. split; [exact Hg|]. split; [exact (proj2 (guards_entered g val ent Hwf Hex _ _ _ Hg Ht))|].
  split.
  - destruct Hu as [Hu| ->]; [exact Hu|]. exfalso.
    destruct (guards_typed g Hwf _ _ _ Hg) as (ty' & Hty' & Hlt). rewrite Hty in Hty'. injection Hty' as <-.
    rewrite unknown_allows in Ha by exact Hlt. discriminate.
  - intros res Hr Hst Hreg Heq. specialize (Hs Ho res Hr Hst Hreg). rewrite Heq, Ha in Hs. discriminate.
Qed.

(* The check says yes for regions that one execution enters, when the
   definition of every predicate that guards the target goes straight down
   into the origin region, or has no part of it.  Missing: the documented
   equivalence with reachability fails in both directions; a definition that
   leaves a region again after it went down can give a wrong no
   (check_reachable_refuted), and a yes promises nothing. *)
Theorem check_reachable_partial g val ent t fuel org target b t' :
  wf g -> execution g val ent -> queried g t -> ent org -> ent target ->
  (forall pred v, guards g target pred v -> out_down_to g org pred \/ ~ on_trace g org pred) ->
  check fuel g org target t = Some (b, t') -> b = true.
Proof.
  intros Hwf Hex Hq Ho Ht Hcond H. destruct b; [reflexivity|]. exfalso.
  destruct (check_false_elsewhere g val ent t fuel org target t' Hwf Hex Hq Ho Ht H) as (p & v & Hg & Hv & Hon & Hall).
  destruct (Hcond p v Hg) as [Hd|Hn]; [|contradiction].
  destruct (guards_entered g val ent Hwf Hex _ _ _ Hg Ht) as [Hp _].
  destruct (out_down_flow g val ent Hwf Hex org p Hd Ho Hp) as (res & H1 & H2 & H3 & H4).
  apply (Hall res H3 H1 H2). congruence.
Qed.

(* Fuel suffices on acyclic graphs. *)
Section Termination.
  Context (g : graph) (rank depth : nat -> nat) (Hr : forall i j, source g i j -> rank j < rank i).
  Context (Hd : forall r, match rpar g r with RTop => True | RGamma outer _ _ | ROther outer => depth outer < depth r end).

  Lemma union_some rec rs : (forall res st, res ∈ rs -> is_Some (rec res st)) -> forall acc st, is_Some (union_results rec rs acc st).
  Proof.
    induction rs as [|res rs IH]; intros Hs acc st; simpl; [eauto|].
    destruct (Hs res st (elem_of_list_here _ _)) as [[r st'] ->]. apply IH.
    intros res' st0 Hin. apply Hs. right. exact Hin.
  Qed.

  Lemma record_some ty fuel : forall i st, rank i < fuel -> is_Some (compute_and_record fuel g ty i st).
  Proof.
    induction fuel as [|f IH]; intros i st Hlt; [lia|]. simpl.
    destruct (visited st !! i); [eauto|].
    assert (Hs : forall j st0, source g i j -> is_Some (compute_and_record f g ty j st0)).
    { intros j st0 Hj. apply IH. specialize (Hr i j Hj). lia. }
    assert (Hc : is_Some (compute g ty (compute_and_record f g ty) i st)).
    { unfold compute. destruct (odefn g (origin g i)) as [alt nalts| |rs|inp post pre|inp| |inp post|] eqn:Ho; try (eexists; reflexivity).
      - apply union_some. intros res st0 Hin. apply Hs. eapply source_gamma; eauto.
      - destruct (Nat.eqb_spec (origin g post) pre); apply Hs; [eapply source_invariant|eapply source_theta]; eauto.
      - apply Hs. eapply source_entry; eauto.
      - destruct (Nat.eqb_spec (origin g post) (origin g i)); [apply Hs; eapply source_pre; eauto|eexists; reflexivity]. }
    destruct Hc as [[r st'] ->]. eexists. reflexivity.
  Qed.

  Lemma sat_some fuel : forall r t, depth r < fuel -> is_Some (get_sat fuel g r t).
  Proof.
    induction fuel as [|f IH]; intros r t Hlt; [lia|]. simpl. destruct (predSat t !! r); [eauto|].
    specialize (Hd r). destruct (rpar g r) as [|outer pred index|outer]; [eauto| |];
      (match goal with |- context [get_sat f g outer ?x] => destruct (IH outer x) as [[req t'] ->]; [lia|eauto] end).
  Qed.

  Lemma check_all_some fuel org req t : (forall p v, (p, v) ∈ req -> rank p < fuel) -> is_Some (check_all fuel g org req t).
  Proof.
    revert t. induction req as [|[p v] req IH]; intros t H; simpl; [eauto|].
    assert (Hg : is_Some (get_assign fuel g org p t)).
    { unfold get_assign. destruct (ity g p) as [ty|]; [|eauto]. destruct (predAssignment t !! p); [eauto|].
      destruct (record_some ty fuel p (TState ∅ ∅ (observers t))) as [[r st] ->]; [apply (H p v); left|eauto]. }
    destruct Hg as [[r t'] ->]. destruct (allows r v); [|eauto]. apply IH. intros q w Hq. apply (H q w). right. exact Hq.
  Qed.
End Termination.

Theorem check_terminates g t org target : wf g -> acyclic g -> queried g t ->
  exists bound, forall fuel, bound <= fuel -> is_Some (check fuel g org target t).
Proof.
  intros Hwf [[rank Hr] [depth Hd]] Hq.
  assert (Hex : execution g (fun _ => 0) (fun _ => False)).
  { split; intros; try contradiction. }
  pose proof (queried_ok g _ _ Hwf Hex t Hq) as Hok.
  destruct (sat_some g depth Hd (S (depth target)) target t) as [[req0 t0] E0]; [lia|].
  destruct (get_sat_ok g _ _ _ _ _ _ _ Hok E0) as [_ Hreq0].
  exists (S (depth target) + S (max_list_with (fun pv => rank (fst pv)) req0)).
  intros fuel Hf. unfold check.
  destruct (sat_some g depth Hd fuel target t) as [[req t1] E]; [lia|]. rewrite E.
  destruct (get_sat_ok g _ _ _ _ _ _ _ Hok E) as [_ Hreq].
  apply (check_all_some g rank Hr). intros p v Hin.
  apply Hreq, Hreq0 in Hin.
  assert (Hle : rank p <= max_list_with (fun pv => rank (fst pv)) req0).
  { clear - Hin. induction req0 as [|[q w] l IH]; [apply elem_of_nil in Hin; destruct Hin|].
    apply elem_of_cons in Hin as [Heq|Hin]; simpl; [injection Heq as <- <-; lia|]. specialize (IH Hin). lia. }
  lia.
Qed.
