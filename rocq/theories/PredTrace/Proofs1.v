From stdpp Require Import base list gmap numbers relations.
From Verif.PredTrace Require Import Model Spec.

Definition below (a b : range) : Prop := forall v, allows a v = true -> allows b v = true.

Lemma below_refl a : below a a.
Proof. intros v H. exact H. Qed.
Lemma below_trans a b c : below a b -> below b c -> below a c.
Proof. intros H1 H2 v H. exact (H2 v (H1 v H)). Qed.

Lemma allows_nil v : allows [] v = false.
Proof. unfold allows. rewrite lookup_nil. reflexivity. Qed.

Lemma update_union_length (a b : range) : length (update_union a b) = length a.
Proof. revert b. induction a as [|x a IH]; intros [|y b]; simpl; try reflexivity. rewrite IH. reflexivity. Qed.

Lemma update_union_left (a b : range) : below a (update_union a b).
Proof.
  revert b. induction a as [|x a IH]; intros [|y b] v; simpl; try (intros H; exact H).
  destruct v as [|v]; unfold allows; simpl.
  - intros ->. reflexivity.
  - apply IH.
Qed.

Lemma update_union_right (a b : range) : length a = length b -> below b (update_union a b).
Proof.
  revert b. induction a as [|x a IH]; intros [|y b] Hl v; simpl in *; try discriminate; try (intros H; exact H).
  destruct v as [|v]; unfold allows; simpl.
  - intros ->. apply orb_true_r.
  - apply IH. lia.
Qed.

Lemma unknown_allows n v : v < n -> allows (create_unknown n) v = true.
Proof. intros H. unfold allows, create_unknown. rewrite lookup_replicate_2; [reflexivity|lia]. Qed.

Lemma single_allows alt n : alt < n -> allows (create_single alt n) alt = true.
Proof.
  intros H. unfold allows, create_single. rewrite list_lookup_insert; [reflexivity|]. rewrite replicate_length. exact H.
Qed.

Section Run.
  Context (g : graph) (val : nat -> nat) (ent : nat -> Prop).
  Context (Hwf : wf g) (Hex : execution g val ent).

  Lemma down_to_flow r i : down_to g r i -> ent r ->
    ent (iregion g i) /\ exists res, istruct g res = true /\ iregion g res = r /\ rtc (source g) i res /\ val (origin g res) = val (origin g i).
  Proof.
    intros H Hr. induction H as [i Hs Hi|i rs res Ho Hin Hd IH|i inp post pre Ho Hne Hd IH|i inp post pre Ho He Hd IH].
    - subst r. split; [exact Hr|]. exists i. split; [exact Hs|]. split; [reflexivity|]. split; [apply rtc_refl|reflexivity].
    - destruct IH as [He (res0 & H1 & H2 & H3 & H4)].
      destruct (wf_gamma g Hwf i rs res Ho Hin) as (Hs & pred & index & Hp).
      destruct (ex_gamma_region g val ent Hex _ _ _ _ Hp He) as [Hi _].
      split; [exact Hi|].
      destruct (ex_gamma g val ent Hex i rs Hi Ho) as (res' & Hin' & He' & Hv & Hu).
      pose proof (Hu res Hin He) as ->.
      exists res0. split; [exact H1|]. split; [exact H2|]. split.
      + eapply rtc_l; [|exact H3]. eapply source_gamma; eauto.
      + rewrite H4, Hv. reflexivity.
    - destruct IH as [He (res0 & H1 & H2 & H3 & H4)].
      destruct (wf_theta g Hwf _ _ _ _ Ho) as (_ & _ & _ & Hp).
      pose proof (ex_other_region g val ent Hex _ _ Hp He) as Hi.
      split; [exact Hi|]. destruct (ex_theta g val ent Hex _ _ _ _ Hi Ho) as [_ Hv].
      exists res0. split; [exact H1|]. split; [exact H2|]. split.
      + eapply rtc_l; [|exact H3]. eapply source_theta; eauto.
      + rewrite H4, Hv. reflexivity.
    - destruct IH as [He0 (res0 & H1 & H2 & H3 & H4)].
      destruct (wf_theta g Hwf _ _ _ _ Ho) as (Hreg & Hpre & _ & _).
      rewrite Hreg in He0. split; [exact He0|].
      destruct (ex_theta g val ent Hex _ _ _ _ He0 Ho) as [Hep Hv].
      exists res0. split; [exact H1|]. split; [exact H2|]. split.
      + eapply rtc_l; [|exact H3]. eapply source_invariant; eauto.
      + rewrite H4, Hv. subst pre. symmetry. eapply (ex_invariant g val ent Hex); eauto.
  Qed.

  Lemma out_down_flow r i : out_down_to g r i -> ent r -> ent (iregion g i) ->
    exists res, istruct g res = true /\ iregion g res = r /\ rtc (source g) i res /\ val (origin g res) = val (origin g i).
  Proof.
    intros H Hr. induction H as [i Hd|i inp Ho Hd IH|i inp post Ho Hp Hd IH]; intros Hi.
    - destruct (down_to_flow r i Hd Hr) as [_ H]. exact H.
    - destruct (wf_entry g Hwf _ _ Ho) as (pred & index & Hpar).
      destruct (ex_gamma_region g val ent Hex _ _ _ _ Hpar Hi) as [Hi' _].
      destruct (IH Hi') as (res0 & H1 & H2 & H3 & H4).
      exists res0. split; [exact H1|]. split; [exact H2|]. split.
      + eapply rtc_l; [|exact H3]. eapply source_entry; eauto.
      + rewrite H4. symmetry. eapply (ex_entry g val ent Hex); eauto.
    - pose proof (wf_pre g Hwf _ _ _ Ho) as Hpar.
      pose proof (ex_other_region g val ent Hex _ _ Hpar Hi) as Hi'.
      destruct (IH Hi') as (res0 & H1 & H2 & H3 & H4).
      exists res0. split; [exact H1|]. split; [exact H2|]. split.
      + eapply rtc_l; [|exact H3]. eapply source_pre; eauto.
      + rewrite H4. symmetry. eapply (ex_invariant g val ent Hex); eauto.
  Qed.

  Section Trace.
    Context (ty use : nat).

    Definition entry_ok (st : tstate) (i : nat) (r : range) : Prop :=
      ity g i = Some ty /\ length r = ty /\ rtc (source g) use i /\
      (ent (iregion g i) -> allows r (val (origin g i)) = true) /\
      (forall j, source g i j -> is_Some (visited st !! j)) /\
      (istruct g i = true -> exists rr, ranges st !! iregion g i = Some rr /\ below r rr).

    Definition inv (st : tstate) : Prop :=
      (forall i r, visited st !! i = Some r -> entry_ok st i r) /\
      (forall k rr, ranges st !! k = Some rr -> length rr = ty /\ exists i, is_Some (visited st !! i) /\ istruct g i = true /\ iregion g i = k).

    Definition grows (st st' : tstate) : Prop := forall j, is_Some (visited st !! j) -> is_Some (visited st' !! j).

    Definition rec_ok (rec : nat -> tstate -> option (range * tstate)) : Prop :=
      forall i st r st', inv st -> ity g i = Some ty -> rtc (source g) use i -> rec i st = Some (r, st') ->
        inv st' /\ grows st st' /\ visited st' !! i = Some r.

    Lemma union_ok rec : rec_ok rec -> forall rs acc st r st',
      inv st -> length acc = ty -> (forall res, res ∈ rs -> ity g res = Some ty /\ rtc (source g) use res) ->
      union_results rec rs acc st = Some (r, st') ->
      inv st' /\ grows st st' /\ length r = ty /\ below acc r /\
      forall res, res ∈ rs -> is_Some (visited st' !! res) /\ (ent (iregion g res) -> allows r (val (origin g res)) = true).
    Proof.
      intros Hrec. induction rs as [|res rs IH]; intros acc st r st' Hi Hl Hall H; simpl in H.
      - injection H as <- <-. split; [exact Hi|]. split; [intros j Hj; exact Hj|]. split; [exact Hl|]. split; [apply below_refl|].
        intros res Hres. apply elem_of_nil in Hres. destruct Hres.
      - destruct (rec res st) as [[r1 st1]|] eqn:E; [|discriminate].
        destruct (Hall res (elem_of_list_here _ _)) as [Ht Hr].
        destruct (Hrec _ _ _ _ Hi Ht Hr E) as (Hi1 & Hg1 & Hv1).
        assert (Hl1 : length r1 = ty) by apply (proj1 Hi1 _ _ Hv1).
        destruct (IH (update_union acc r1) st1 r st' Hi1) as (Hi2 & Hg2 & Hl2 & Hb2 & Hall2).
        { rewrite update_union_length. exact Hl. }
        { intros res' Hin. apply Hall. right. exact Hin. }
        { exact H. }
        split; [exact Hi2|]. split; [intros j Hj; apply Hg2, Hg1, Hj|]. split; [exact Hl2|].
        split; [eapply below_trans; [apply update_union_left|exact Hb2]|].
        intros res' Hin. apply elem_of_cons in Hin as [->|Hin]; [|exact (Hall2 res' Hin)].
        split; [apply Hg2; rewrite Hv1; eauto|].
        intros He. apply Hb2, update_union_right; [congruence|].
        apply (proj1 Hi1 _ _ Hv1). exact He.
    Qed.

    Lemma note_ok i r st : inv st -> ity g i = Some ty -> length r = ty -> rtc (source g) use i ->
      (ent (iregion g i) -> allows r (val (origin g i)) = true) ->
      (forall j, source g i j -> is_Some (visited st !! j)) ->
      inv (note g i r st) /\ grows st (note g i r st) /\ visited (note g i r st) !! i = Some r.
    Proof.
      intros [Hi1 Hi2] Ht Hl Hr Hv Hs.
      assert (Hvis : visited (note g i r st) = <[i := r]> (visited st)).
      { unfold note. destruct (istruct g i); [|reflexivity]. destruct (ranges st !! iregion g i); reflexivity. }
      assert (Hgr : grows st (note g i r st)).
      { intros j Hj. rewrite Hvis. destruct (decide (i = j)) as [->|Hne]; [rewrite lookup_insert; eauto|rewrite lookup_insert_ne by exact Hne; exact Hj]. }
      assert (Hrg : forall k rr, ranges st !! k = Some rr -> exists rr', ranges (note g i r st) !! k = Some rr' /\ below rr rr').
      { intros k rr Hk. unfold note. destruct (istruct g i); [|exists rr; split; [exact Hk|apply below_refl]].
        destruct (ranges st !! iregion g i) as [r0|] eqn:E; simpl.
        - destruct (decide (iregion g i = k)) as [Hd|Hd].
          + subst k. exists (update_union r0 r). rewrite lookup_insert. split; [reflexivity|].
            rewrite E in Hk. injection Hk as ->. apply update_union_left.
          + exists rr. rewrite lookup_insert_ne by exact Hd. split; [exact Hk|apply below_refl].
        - destruct (decide (iregion g i = k)) as [Hd|Hd]; [subst k; congruence|].
          exists rr. rewrite lookup_insert_ne by exact Hd. split; [exact Hk|apply below_refl]. }
      assert (Hmine : istruct g i = true -> exists rr, ranges (note g i r st) !! iregion g i = Some rr /\ below r rr).
      { intros Hst. unfold note. rewrite Hst. destruct (ranges st !! iregion g i) as [r0|] eqn:E; simpl; rewrite lookup_insert.
        - eexists. split; [reflexivity|]. apply update_union_right. destruct (Hi2 _ _ E) as [Hl0 _]. congruence.
        - eexists. split; [reflexivity|apply below_refl]. }
      assert (Hkeep : forall j rj, entry_ok st j rj -> entry_ok (note g i r st) j rj).
      { intros j rj (H1 & H2 & H3 & H4 & H5 & H6). split; [exact H1|]. split; [exact H2|]. split; [exact H3|]. split; [exact H4|].
        split; [intros k Hk; apply Hgr, H5, Hk|].
        intros Hst. destruct (H6 Hst) as (rr & Hrr & Hb). destruct (Hrg _ _ Hrr) as (rr' & Hrr' & Hb').
        exists rr'. split; [exact Hrr'|]. eapply below_trans; eassumption. }
      split; [split|split].
      - intros j rj Hj. rewrite Hvis in Hj. destruct (decide (i = j)) as [Hd|Hd].
        + subst j. rewrite lookup_insert in Hj. injection Hj as <-.
          split; [exact Ht|]. split; [exact Hl|]. split; [exact Hr|]. split; [exact Hv|].
          split; [intros k Hk; apply Hgr, Hs, Hk|exact Hmine].
        + rewrite lookup_insert_ne in Hj by exact Hd. apply Hkeep, Hi1, Hj.
      - intros k rr Hk.
        assert (Hcase : (ranges st !! k = Some rr) \/ (istruct g i = true /\ iregion g i = k /\ length rr = ty)).
        { revert Hk. unfold note. destruct (istruct g i) eqn:Est; simpl; [|intros Hk; left; exact Hk].
          destruct (ranges st !! iregion g i) as [r0|] eqn:E; simpl.
          - destruct (decide (iregion g i = k)) as [Hd|Hd].
            + subst k. rewrite lookup_insert. intros [= <-]. right. split; [reflexivity|]. split; [reflexivity|].
              rewrite update_union_length. apply (Hi2 _ _ E).
            + rewrite lookup_insert_ne by exact Hd. intros Hk; left; exact Hk.
          - destruct (decide (iregion g i = k)) as [Hd|Hd].
            + subst k. rewrite lookup_insert. intros [= <-]. right. split; [reflexivity|]. split; [reflexivity|exact Hl].
            + rewrite lookup_insert_ne by exact Hd. intros Hk; left; exact Hk. }
        destruct Hcase as [Hk'|(Hst & Hk' & Hlr)].
        + destruct (Hi2 _ _ Hk') as (Hlr & j & Hj1 & Hj2). split; [exact Hlr|]. exists j. split; [apply Hgr, Hj1|exact Hj2].
        + split; [exact Hlr|]. exists i. split; [rewrite Hvis, lookup_insert; eauto|]. split; [exact Hst|exact Hk'].
      - exact Hgr.
      - rewrite Hvis, lookup_insert. reflexivity.
    Qed.

    Lemma source_cases i j : source g i j ->
      match odefn g (origin g i) with
      | OGammaOut rs => j ∈ rs
      | OEntry inp => j = inp
      | OThetaOut inp post pre => if origin g post =? pre then j = inp else j = post
      | OThetaPre inp post => origin g post = origin g i /\ j = inp
      | _ => False
      end.
    Proof.
      intros [rs res H Hin|inp H|inp post pre H Hne|inp post pre H He|inp post H He]; rewrite H.
      - exact Hin.
      - reflexivity.
      - destruct (Nat.eqb_spec (origin g post) pre) as [|_]; [contradiction|reflexivity].
      - rewrite He, Nat.eqb_refl. reflexivity.
      - split; [exact He|reflexivity].
    Qed.

    Lemma compute_ok rec : rec_ok rec -> forall i st r st', inv st -> ity g i = Some ty -> rtc (source g) use i ->
      compute g ty rec i st = Some (r, st') ->
      inv st' /\ grows st st' /\ length r = ty /\ (ent (iregion g i) -> allows r (val (origin g i)) = true) /\
      (forall j, source g i j -> is_Some (visited st' !! j)).
    Proof.
      intros Hrec i st r st' Hi Ht Hr H. unfold compute in H.
      assert (Hsame : forall x, grows x x) by (intros x j Hj; exact Hj).
      assert (Hstep : forall j, source g i j -> ity g j = Some ty /\ rtc (source g) use j).
      { intros j Hj. split; [eapply (wf_type g Hwf); eauto|]. eapply rtc_r; eauto. }
      assert (Hone : forall j, source g i j -> rec j st = Some (r, st') ->
                (ent (iregion g i) -> ent (iregion g j) /\ val (origin g i) = val (origin g j)) ->
                (forall k, source g i k -> k = j) ->
                inv st' /\ grows st st' /\ length r = ty /\ (ent (iregion g i) -> allows r (val (origin g i)) = true) /\
                (forall k, source g i k -> is_Some (visited st' !! k))).
      { intros j Hj E Hv Hu. destruct (Hstep j Hj) as [Htj Hrj]. destruct (Hrec _ _ _ _ Hi Htj Hrj E) as (A & B & C).
        destruct (proj1 A _ _ C) as (_ & D1 & _ & D2 & _).
        split; [exact A|]. split; [exact B|]. split; [exact D1|]. split.
        - intros He. destruct (Hv He) as [He' ->]. exact (D2 He').
        - intros k Hk. rewrite (Hu k Hk), C. eauto. }
      assert (Hunk : (match odefn g (origin g i) with OSimple | OMatchArg | OOther => True | OThetaPre inp post => origin g post <> origin g i | _ => False end) ->
                Some (create_unknown ty, st) = Some (r, st') ->
                inv st' /\ grows st st' /\ length r = ty /\ (ent (iregion g i) -> allows r (val (origin g i)) = true) /\
                (forall k, source g i k -> is_Some (visited st' !! k))).
      { intros Hd [= <- <-]. split; [exact Hi|]. split; [apply Hsame|]. split; [apply replicate_length|]. split.
        - intros He. apply unknown_allows. exact (ex_type g val ent Hex i ty He Ht).
        - intros k Hk. apply source_cases in Hk. destruct (odefn g (origin g i)); try contradiction. destruct Hk; contradiction. }
      destruct (odefn g (origin g i)) as [alt nalts| |rs|inp post pre|inp| |inp post|] eqn:Ho; try (apply Hunk; [exact I|exact H]).
      - injection H as <- <-. destruct (wf_const g Hwf _ _ _ Ho) as [Hlt Hty]. rewrite Ht in Hty. injection Hty as <-.
        split; [exact Hi|]. split; [apply Hsame|]. split; [unfold create_single; rewrite insert_length; apply replicate_length|]. split.
        + intros He. rewrite (ex_const g val ent Hex _ _ _ He Ho). apply single_allows. exact Hlt.
        + intros k Hk. apply source_cases in Hk. rewrite Ho in Hk. destruct Hk.
      - destruct (union_ok rec Hrec rs (create_empty ty) st r st' Hi) as (A & B & C & _ & D).
        { apply replicate_length. }
        { intros res Hin. apply Hstep. eapply source_gamma; eauto. }
        { exact H. }
        split; [exact A|]. split; [exact B|]. split; [exact C|]. split.
        + intros He. destruct (ex_gamma g val ent Hex i rs He Ho) as (res & Hin & Her & -> & _). exact (proj2 (D res Hin) Her).
        + intros k Hk. apply source_cases in Hk. rewrite Ho in Hk. exact (proj1 (D k Hk)).
      - destruct (wf_theta g Hwf _ _ _ _ Ho) as (Hreg & Hpre & Hst & Hpar).
        destruct (Nat.eqb_spec (origin g post) pre) as [He|Hne].
        + apply (Hone inp); [eapply source_invariant; eauto|exact H| |].
          * intros Hen. rewrite Hreg. split; [exact Hen|]. destruct (ex_theta g val ent Hex _ _ _ _ Hen Ho) as [Hep ->].
            subst pre. eapply (ex_invariant g val ent Hex); eauto.
          * intros k Hk. apply source_cases in Hk. rewrite Ho in Hk. rewrite He, Nat.eqb_refl in Hk. exact Hk.
        + apply (Hone post); [eapply source_theta; eauto|exact H| |].
          * intros Hen. exact (ex_theta g val ent Hex _ _ _ _ Hen Ho).
          * intros k Hk. apply source_cases in Hk. rewrite Ho in Hk. destruct (Nat.eqb_spec (origin g post) pre) as [|_]; [contradiction|exact Hk].
      - apply (Hone inp); [eapply source_entry; eauto|exact H| |].
        + intros Hen. destruct (wf_entry g Hwf _ _ Ho) as (pred & index & Hpar).
          destruct (ex_gamma_region g val ent Hex _ _ _ _ Hpar Hen) as [He' _]. split; [exact He'|]. exact (ex_entry g val ent Hex _ _ Hen Ho).
        + intros k Hk. apply source_cases in Hk. rewrite Ho in Hk. exact Hk.
      - destruct (Nat.eqb_spec (origin g post) (origin g i)) as [He|Hne]; [|apply Hunk; [exact Hne|exact H]].
        apply (Hone inp); [eapply source_pre; eauto|exact H| |].
        + intros Hen. split; [exact (ex_other_region g val ent Hex _ _ (wf_pre g Hwf _ _ _ Ho) Hen)|].
          eapply (ex_invariant g val ent Hex); eauto.
        + intros k Hk. apply source_cases in Hk. rewrite Ho in Hk. exact (proj2 Hk).
    Qed.

    Lemma record_ok fuel : rec_ok (compute_and_record fuel g ty).
    Proof.
      induction fuel as [|f IH]; intros i st r st' Hi Ht Hr H; simpl in H; [discriminate|].
      destruct (visited st !! i) as [r0|] eqn:E.
      - injection H as <- <-. split; [exact Hi|]. split; [intros j Hj; exact Hj|exact E].
      - destruct (compute g ty (compute_and_record f g ty) i st) as [[r1 st1]|] eqn:Ec; [|discriminate].
        injection H as <- <-.
        destruct (compute_ok _ IH i st r1 st1 Hi Ht Hr Ec) as (A & B & C & D & F).
        destruct (note_ok i r1 st1 A Ht C Hr D F) as (N1 & N2 & N3).
        split; [exact N1|]. split; [intros j Hj; apply N2, B, Hj|exact N3].
    Qed.

    (* the whole trace of a use *)
    Lemma closed_reaches st : inv st -> is_Some (visited st !! use) -> forall i, rtc (source g) use i -> is_Some (visited st !! i).
    Proof.
      intros Hi Hu i H.
      assert (Hgen : forall a, rtc (source g) a i -> is_Some (visited st !! a) -> is_Some (visited st !! i)).
      { clear H. intros a Ha. induction Ha as [x|x y z Hxy Hyz IHr]; intros Hx; [exact Hx|].
        apply IHr. destruct Hx as [r Hx]. apply (proj1 Hi _ _ Hx). exact Hxy. }
      exact (Hgen use H Hu).
    Qed.
  End Trace.
End Run.
