(** Pulling a node into the gamma node. *)
From stdpp Require Import base list gmap.
From Coq Require Import ZArith Lia.
From Verif.LocalRegion Require Import Model Spec Facts.
From Verif.Unswitch Require Import Model Spec Proofs1 Proofs3.

Lemma remove_at_zip (O : list nat) : forall (as_ es : list nat), length as_ = length es ->
  mjoin (imap (fun i (x : nat) => if match es !! i with Some y => bool_decide (y ∈ O) | None => false end then [] else [x]) as_) = map fst (filter (fun d => d.2 ∉ O) (zip as_ es)).
Proof.
  induction as_ as [|a l IH]; intros es Hl; [done|]. destruct es as [|e es]; [done|]. cbn in Hl. change (zip (a :: l) (e :: es)) with ((a, e) :: zip l es). cbn [imap mjoin]. cbn [lookup list_lookup]. change (mjoin (?x :: ?y)) with (x ++ mjoin y).
  rewrite filter_cons. destruct (decide ((a, e).2 ∉ O)) as [H|H]; cbn [snd] in H.
  - rewrite bool_decide_eq_false_2 by done. cbn [app map fst]. f_equal. rewrite <-IH by lia. done.
  - rewrite bool_decide_eq_true_2 by (by destruct (decide (e ∈ O))). cbn [app]. rewrite <-IH by lia. done.
Qed.
Lemma filter_zip (O : list nat) : forall (as_ es : list nat), length as_ = length es -> filter (fun x => x ∉ O) es = map snd (filter (fun d => d.2 ∉ O) (zip as_ es)).
Proof.
  induction as_ as [|a l IH]; intros es Hl; [by destruct es|]. destruct es as [|e es]; [done|]. cbn in Hl. change (zip (a :: l) (e :: es)) with ((a, e) :: zip l es). rewrite !filter_cons. cbn [snd].
  destruct (decide (e ∉ O)); cbn [map snd]; [f_equal|]; apply IH; lia.
Qed.

Lemma zip_sublist (O : list nat) : forall (l k : list nat), map fst (filter (fun d => d.2 ∉ O) (zip l k)) `sublist_of` l.
Proof. induction l as [|a l IH]; intros k; [done|]. destruct k as [|e k]; [apply sublist_nil_l|]. change (zip (a :: l) (e :: k)) with ((a, e) :: zip l k). rewrite filter_cons. destruct (decide _); cbn [map fst]; constructor; apply IH. Qed.
Lemma sublist_NoDup {A} (l k : list A) : NoDup k -> l `sublist_of` k -> NoDup l.
Proof.
  intros Hn Hs. induction Hs as [|x l k Hs IH|x l k Hs IH]; [done| |].
  - apply NoDup_cons in Hn as [H1 H2]. apply NoDup_cons. split; [|by apply IH]. intros Hc. apply H1. eapply elem_of_submseteq; [exact Hc|]. by apply sublist_submseteq.
  - apply NoDup_cons in Hn as [H1 H2]. by apply IH.
Qed.
Section Pull.
  Context (other : nat -> list val -> option (list val)) (content : val -> val).
  Local Notation holds := (holds other content).
  Local Notation hold := (hold other content).
  Local Notation runs := (runs other content).
  Local Notation eval := (eval other content).
  Section Into.
    Context (es : list nat) (n : node) (r : region) (a0 : nat) (as_ : list nat).
    Context (Hw : wf_region r) (Ha : rargs r = a0 :: as_) (Hl : length as_ = length es) (Hno : NoDup (nouts n)).
    Let b := region_bound r.
    Let k := length (nins n).
    Let f (a : nat) : nat := match list_find (fun d => d.1 = a) (zip (tail (rargs r)) es) with
             | Some (_, (_, x)) => match list_find (fun y => y = x) (nouts n) with Some (j, _) => nth j (seq (b + k) (length (nouts n))) 0 | None => a end
             | None => a end.
    Let Z := filter (fun d => d.2 ∉ nouts n) (zip as_ es).
    Lemma pull_shape : pull_into es n r = Region (a0 :: map fst Z ++ seq b k) (Node (nkind n) (seq b k) (seq (b + k) (length (nouts n))) :: map (divert_node f) (rnodes r)) (map f (rres r)).
    Proof using Ha Hl.
      unfold pull_into. fold b k. f_equal. rewrite Ha. unfold remove_at. cbn [imap]. change (mjoin (?x :: ?y)) with (x ++ mjoin y). rewrite <-app_assoc. cbn [app]. f_equal. f_equal. unfold Z. rewrite <-remove_at_zip by done. done.
    Qed.
    Lemma args_nodup : NoDup (a0 :: as_) /\ (forall x, x ∈ a0 :: as_ -> x ∉ all_outs (rnodes r)) /\ forall x, x ∈ names r -> x < b.
    Proof using Hw Ha. destruct Hw as (Hn & _). unfold names in Hn. rewrite Ha in Hn. apply NoDup_app in Hn as (H1 & H2 & _). split; [done|]. split; [done|]. intros x. apply region_bound_ok. Qed.
    Lemma f_arg i a x : as_ !! i = Some a -> es !! i = Some x -> (x ∉ nouts n /\ f a = a) \/ exists j, nouts n !! j = Some x /\ f a = b + k + j.
    Proof using Hw Ha Hl.
      destruct args_nodup as (Hn & _). apply NoDup_cons in Hn as [_ Hn]. intros Hi Hx. unfold f. rewrite Ha. cbn [tail].
      assert (E : list_find (fun d : nat * nat => d.1 = a) (zip as_ es) = Some (i, (a, x))).
      { apply list_find_Some. split; [apply lookup_zip_with_Some; by exists a, x|]. split; [done|]. intros j [a' x'] Hj Hlt Ea. cbn in Ea. subst a'. apply lookup_zip_with_Some in Hj as (a' & x'' & E & Hj & _). injection E as <- <-. pose proof (NoDup_lookup _ _ _ _ Hn Hi Hj). lia. }
      rewrite E. destruct (list_find (fun y => y = x) (nouts n)) as [[j y]|] eqn:Ej.
      - right. apply list_find_Some in Ej as (Ej & -> & _). exists j. split; [done|]. erewrite nth_lookup_Some; [reflexivity|]. apply lookup_seq. split; [done|]. by eapply lookup_lt_Some.
      - left. split; [|done]. intros Hc. apply list_find_None in Ej. rewrite Forall_forall in Ej. by apply (Ej x).
    Qed.
    Lemma f_out x : x ∉ as_ -> f x = x.
    Proof using Ha. intros Hx. unfold f. rewrite Ha. cbn [tail]. destruct (list_find _ _) as [[i [a y]]|] eqn:E; [|done]. exfalso. apply list_find_Some in E as (E & Ex & _). cbn in Ex. subst a. apply lookup_zip_with_Some in E as (a & z & E & Hi & _). injection E as <- <-. apply Hx. by eapply elem_of_list_lookup_2. Qed.
    Lemma es_of i a : as_ !! i = Some a -> exists x, es !! i = Some x.
    Proof using Hl. intros Hi. apply lookup_lt_is_Some_2. rewrite <-Hl. by eapply lookup_lt_Some. Qed.
    Lemma Z_in i a x : as_ !! i = Some a -> es !! i = Some x -> x ∉ nouts n -> (a, x) ∈ Z.
    Proof. intros Hi Hx Hn. unfold Z. apply elem_of_list_filter. split; [done|]. apply elem_of_list_lookup. exists i. apply lookup_zip_with_Some. by exists a, x. Qed.
    Lemma pull_into_fwd c rho us : runs r (c :: map rho es) us -> holds rho n -> runs (pull_into es n r) (c :: map rho (filter (fun x => x ∉ nouts n) es) ++ map rho (nins n)) us.
    Proof using Hw Ha Hl Hno.
      intros Hr Hh. rewrite pull_shape. destruct args_nodup as (Hn & Hd & Hb). apply runs_iff in Hr as (rho1 & E1 & H1 & <-). rewrite Ha in E1. cbn [map] in E1. injection E1 as E0 E1.
      set (rho' := fun y => if decide (y < b) then rho1 y else if decide (y < b + k) then nth (y - b) (map rho (nins n)) (VAny 0) else nth (y - (b + k)) (map rho (nouts n)) (VAny 0)).
      assert (R1 : forall y, y < b -> rho' y = rho1 y) by (intros y Hy; unfold rho'; by rewrite decide_True).
      assert (Hval : forall i a x, as_ !! i = Some a -> es !! i = Some x -> rho1 a = rho x).
      { intros i a x Hi Hx. assert (E : map rho1 as_ !! i = map rho es !! i) by (by rewrite E1). change (map ?f ?m) with (f <$> m) in E. rewrite !list_lookup_fmap, Hi, Hx in E. cbn in E. congruence. }
      assert (Rf : forall x, x ∈ names r -> rho' (f x) = rho1 x).
      { intros x Hx. destruct (decide (x ∈ as_)) as [Hin|Hout]; [|rewrite f_out by done; by apply R1, Hb]. apply elem_of_list_lookup in Hin as [i Hi]. destruct (es_of _ _ Hi) as [y Hy]. destruct (f_arg _ _ _ Hi Hy) as [[_ ->]|(j & Hj & ->)]; [by apply R1, Hb|].
        unfold rho'. rewrite decide_False by lia. rewrite decide_False by lia. replace (b + k + j - (b + k)) with j by lia. rewrite (Hval _ _ _ Hi Hy). erewrite nth_lookup_Some; [reflexivity|]. change (map ?f ?m) with (f <$> m). by rewrite list_lookup_fmap, Hj. }
      assert (Rin : map rho' (seq b k) = map rho (nins n)).
      { pose proof (map_nth_seq (map rho (nins n)) b) as E. rewrite map_length in E. etransitivity; [|exact E]. unfold k. apply map_ext_in. intros y Hy%elem_of_list_In. apply elem_of_seq in Hy. fold k in Hy. unfold rho'. rewrite decide_False by lia. by rewrite decide_True by lia. }
      assert (Rout : map rho' (seq (b + k) (length (nouts n))) = map rho (nouts n)).
      { pose proof (map_nth_seq (map rho (nouts n)) (b + k)) as E. rewrite map_length in E. etransitivity; [|exact E]. apply map_ext_in. intros y Hy%elem_of_list_In. apply elem_of_seq in Hy. unfold rho'. rewrite decide_False by lia. by rewrite decide_False by lia. }
      apply runs_iff. exists rho'. cbn [rargs rnodes rres]. split; [|split].
      - cbn [map]. f_equal; [rewrite R1, E0; [done|]; apply Hb; unfold names; rewrite Ha; by left|]. rewrite map_app, Rin. f_equal. rewrite (filter_zip _ as_ es Hl). fold Z. rewrite !map_map. apply map_ext_in. intros [a x] Hd'%elem_of_list_In. unfold Z in Hd'. apply elem_of_list_filter in Hd' as [_ Hd'].
        apply elem_of_list_lookup in Hd' as [i Hi]. apply lookup_zip_with_Some in Hi as (a' & x' & E & Hi & Hx). injection E as <- <-. cbn [fst snd]. rewrite R1; [by eapply Hval|]. apply Hb. unfold names. rewrite Ha. apply elem_of_app. left. right. by eapply elem_of_list_lookup_2.
      - rewrite hold_cons. split; [unfold Spec.holds in *; cbn [nkind nins nouts]; by rewrite Rin, Rout|]. intros m' Hm'. apply elem_of_list_fmap in Hm' as (m & -> & Hm). specialize (H1 m Hm). unfold Spec.holds in *. cbn [divert_node nkind nins nouts].
        replace (map rho' (map f (nins m))) with (map rho1 (nins m)); [replace (map rho' (nouts m)) with (map rho1 (nouts m)); [done|]|].
        + apply map_ext_in. intros y Hy%elem_of_list_In. symmetry. apply R1, Hb. unfold names. apply elem_of_app. right. apply elem_all_outs. by exists m.
        + rewrite map_map. apply map_ext_in. intros y Hy%elem_of_list_In. symmetry. apply Rf. destruct Hw as (_ & Hu & _). by eapply Hu.
      - rewrite map_map. apply map_ext_in. intros y Hy%elem_of_list_In. apply Rf. destruct Hw as (_ & _ & Hu). by apply Hu.
    Qed.
    Lemma pull_into_bwd c rho us : runs (pull_into es n r) (c :: map rho (filter (fun x => x ∉ nouts n) es) ++ map rho (nins n)) us ->
      exists ovs, length ovs = length (nouts n) /\ eval (nkind n) (map rho (nins n)) ovs /\ forall rho', map rho' (nouts n) = ovs -> (forall x, x ∉ nouts n -> rho' x = rho x) -> runs r (c :: map rho' es) us.
    Proof using Hw Ha Hl Hno.
      intros Hr. rewrite pull_shape in Hr. destruct args_nodup as (Hn & Hd & Hb). apply runs_iff in Hr as (rho1 & E1 & H1 & <-). cbn [rargs rnodes rres] in *. cbn [map] in E1. injection E1 as E0 E1. rewrite map_app in E1.
      rewrite (filter_zip _ as_ es Hl) in E1. fold Z in E1. apply app_inj_1 in E1 as [E1 E2]; [|by rewrite !map_length]. apply hold_cons in H1 as [H1 H2]. unfold Spec.holds in H1. cbn [nkind nins nouts] in H1. rewrite E2 in H1.
      exists (map rho1 (seq (b + k) (length (nouts n)))). split; [by rewrite map_length, seq_length|]. split; [done|]. intros rho' Ho Hne.
      assert (Hz : forall d, d ∈ Z -> rho1 d.1 = rho d.2).
      { intros d Hd'. apply elem_of_list_lookup in Hd' as [i Hi]. assert (E : map rho1 (map fst Z) !! i = map rho (map snd Z) !! i) by (by rewrite E1). rewrite !map_map in E. change (map ?f ?m) with (f <$> m) in E. rewrite !list_lookup_fmap, Hi in E. cbn in E. congruence. }
      apply runs_iff. exists (fun x => rho1 (f x)). split; [|split].
      - rewrite Ha. cbn [map]. apply NoDup_cons in Hn as [Hn0 Hn]. f_equal; [by rewrite f_out|].
        apply list_eq_same_length with (length es); [by rewrite map_length | by rewrite map_length|]. intros i u v Hi Hu Hv. change (map ?f ?m) with (f <$> m) in Hu, Hv. apply list_lookup_fmap_inv in Hu as (a & -> & Ha'). apply list_lookup_fmap_inv in Hv as (x & -> & Hx).
        destruct (f_arg _ _ _ Ha' Hx) as [[Hx' ->]|(j & Hj & ->)].
        + assert (E : rho1 a = rho x) by (apply (Hz (a, x)); by eapply Z_in). rewrite E. by rewrite Hne.
        + assert (E : map rho' (nouts n) !! j = map rho1 (seq (b + k) (length (nouts n))) !! j) by (by rewrite Ho). change (map ?f ?m) with (f <$> m) in E. rewrite !list_lookup_fmap, Hj in E. rewrite lookup_seq_lt in E by (by eapply lookup_lt_Some). change (Some (rho' x) = Some (rho1 (b + k + j))) in E. by injection E as ->.
      - intros m Hm. specialize (H2 (divert_node f m)). unfold Spec.holds in *. cbn [divert_node nkind nins nouts] in H2. rewrite map_map in H2. replace (map (fun x => rho1 (f x)) (nouts m)) with (map rho1 (nouts m)); [apply H2; apply elem_of_list_fmap; by exists m|].
        apply map_ext_in. intros y Hy%elem_of_list_In. rewrite f_out; [done|]. intros Hc. apply (Hd y); [by right|]. apply elem_all_outs. by exists m.
      - by rewrite map_map.
    Qed.
    Lemma pull_into_wf : wf_region (pull_into es n r) /\ length (rargs (pull_into es n r)) = S (length (filter (fun x => x ∉ nouts n) es) + length (nins n)) /\ length (rres (pull_into es n r)) = length (rres r).
    Proof using Hw Ha Hl Hno other.
      rewrite pull_shape. destruct args_nodup as (Hn & Hd & Hb). destruct Hw as (Hn' & Hu & Hr). cbn [rargs rres].
      assert (Ho : all_outs (map (divert_node f) (rnodes r)) = all_outs (rnodes r)). { unfold all_outs. by rewrite map_map. }
      assert (Hsub : map fst Z `sublist_of` as_).
      { apply zip_sublist. }
      assert (Hf : forall x, x ∈ names r -> f x ∈ names (Region (a0 :: map fst Z ++ seq b k) (Node (nkind n) (seq b k) (seq (b + k) (length (nouts n))) :: map (divert_node f) (rnodes r)) (map f (rres r)))).
      { intros x Hx. unfold names. cbn [rargs rnodes]. rewrite all_outs_cons, Ho. cbn [nouts]. unfold names in Hx. rewrite Ha in Hx. destruct (decide (x ∈ as_)) as [Hin|Hout].
        - apply elem_of_list_lookup in Hin as [i Hi]. destruct (es_of _ _ Hi) as [y Hy]. destruct (f_arg _ _ _ Hi Hy) as [[Hy' ->]|(j & Hj & ->)].
          + rewrite !elem_of_app, elem_of_cons, !elem_of_app. left. right. left. apply elem_of_list_fmap. exists (x, y). split; [done|]. by eapply Z_in.
          + rewrite !elem_of_app. right. left. apply elem_of_seq. apply lookup_lt_Some in Hj. lia.
        - rewrite f_out by done. rewrite !elem_of_app, elem_of_cons in *. tauto. }
      split; [split; [|split]|split].
      - unfold names. cbn [rargs rnodes]. rewrite all_outs_cons, Ho. cbn [nouts]. unfold names in Hn'. rewrite Ha in Hn'. apply NoDup_app in Hn' as (_ & _ & Hno').
        assert (Hlow : forall x, x ∈ a0 :: map fst Z -> x ∈ a0 :: as_). { intros x Hx. apply elem_of_cons in Hx as [->|Hx]; [by left|]. right. eapply elem_of_submseteq; [exact Hx|]. by apply sublist_submseteq. }
        assert (Hlow' : forall x, x ∈ a0 :: map fst Z -> x < b). { intros x Hx. apply Hb. unfold names. rewrite Ha. apply elem_of_app. left. auto. }
        change (a0 :: map fst Z ++ seq b k) with ((a0 :: map fst Z) ++ seq b k). rewrite <-app_assoc, (assoc_L (++) (seq b k)), <-seq_app. apply NoDup_app. split; [|split].
        + eapply sublist_NoDup; [exact Hn|]. by constructor.
        + intros x Hx [Hc|Hc]%elem_of_app; [apply elem_of_seq in Hc; specialize (Hlow' x Hx); lia | exact (Hd x (Hlow x Hx) Hc)].
        + apply NoDup_app. split; [apply NoDup_seq|]. split; [|done]. intros x Hx Hc. apply elem_of_seq in Hx. assert (x < b); [|lia]. apply Hb. unfold names. apply elem_of_app. by right.
      - intros m x Hm Hx. cbn [rnodes] in Hm. apply elem_of_cons in Hm as [->|Hm].
        + cbn [nins] in Hx. unfold names. cbn [rargs]. apply elem_of_app. left. right. apply elem_of_app. by right.
        + apply elem_of_list_fmap in Hm as (m0 & -> & Hm). cbn [divert_node nins] in Hx. apply elem_of_list_fmap in Hx as (y & -> & Hy). apply Hf. by eapply Hu.
      - intros x Hx. cbn [rres] in Hx. apply elem_of_list_fmap in Hx as (y & -> & Hy). by apply Hf, Hr.
      - cbn [length]. rewrite app_length, map_length, seq_length. rewrite (filter_zip _ as_ es Hl), map_length. done.
      - by rewrite map_length.
    Qed.
  End Into.
  Lemma pull_holds n subs q es outs rho : wf_gamma (Node (KGamma subs) (q :: es) outs) -> NoDup (nouts n) -> holds rho n -> holds rho (Node (KGamma subs) (q :: es) outs) -> holds rho (pull_node n (Node (KGamma subs) (q :: es) outs)).
  Proof.
    intros [_ Hw] Hno Hn Hg. unfold Spec.holds in *. cbn [pull_node nkind nins nouts map] in *. rewrite gamma_inv in *. destruct Hg as (i & r & vs0 & E & Hi & Hr). injection E as E1 <-. destruct (Hw r) as (W & L1 & L2); [by eapply elem_of_list_lookup_2|]. cbn [nins nouts length] in L1, L2. destruct (rargs r) as [|a0 as_] eqn:Ea; [done|]. cbn in L1.
    exists i, (pull_into es n r), (map rho (filter (fun x => x ∉ nouts n) es) ++ map rho (nins n)). split; [rewrite map_app; by rewrite E1|]. split; [change (map ?f ?m) with (f <$> m); by rewrite list_lookup_fmap, Hi|]. eapply pull_into_fwd; [done | exact Ea | lia | done | done | done].
  Qed.
  Lemma pull_holds_inv n subs q es outs rho : wf_gamma (Node (KGamma subs) (q :: es) outs) -> NoDup (nouts n) -> holds rho (pull_node n (Node (KGamma subs) (q :: es) outs)) ->
    q ∉ nouts n -> (forall x, x ∈ outs ++ nins n -> x ∉ nouts n) -> exists rho', (forall x, x ∉ nouts n -> rho' x = rho x) /\ holds rho' n /\ holds rho' (Node (KGamma subs) (q :: es) outs).
  Proof.
    intros [_ Hw] Hno Hg Hq Hd. unfold Spec.holds in *. cbn [pull_node nkind nins nouts map] in *. rewrite gamma_inv in Hg. destruct Hg as (i & r' & vs0 & E & Hi & Hr). rewrite map_app in E. injection E as E1 <-. change (map (pull_into es n) subs) with (pull_into es n <$> subs) in Hi. apply list_lookup_fmap_inv in Hi as (r & -> & Hi).
    destruct (Hw r) as (W & L1 & L2); [by eapply elem_of_list_lookup_2|]. cbn [nins nouts length] in L1, L2. destruct (rargs r) as [|a0 as_] eqn:Ea; [done|]. cbn in L1.
    destruct (pull_into_bwd es n r a0 as_ W Ea ltac:(lia) Hno _ rho _ Hr) as (ovs & Hlo & Hev & Hrun).
    set (rho' := fun x => match list_find (fun y => y = x) (nouts n) with Some (j, _) => nth j ovs (VAny 0) | None => rho x end).
    assert (R1 : forall x, x ∉ nouts n -> rho' x = rho x). { intros x Hx. unfold rho'. destruct (list_find _ _) as [[j y]|] eqn:Ej; [|done]. apply list_find_Some in Ej as (Ej & -> & _). exfalso. apply Hx. by eapply elem_of_list_lookup_2. }
    assert (R2 : map rho' (nouts n) = ovs).
    { apply list_eq_same_length with (length ovs); [done | by rewrite map_length|]. intros j u v Hj Hu Hv. change (map ?f ?m) with (f <$> m) in Hu. apply list_lookup_fmap_inv in Hu as (x & -> & Hx). unfold rho'.
      assert (Ef : list_find (fun y => y = x) (nouts n) = Some (j, x)). { apply list_find_Some. split; [done|]. split; [done|]. intros t y Ht Hlt ->. pose proof (NoDup_lookup _ _ _ _ Hno Hx Ht). lia. }
      rewrite Ef. by apply nth_lookup_Some. }
    assert (M : forall l, (forall x, x ∈ l -> x ∉ nouts n) -> map rho' l = map rho l). { intros l H. apply map_ext_in. intros x Hx%elem_of_list_In. apply R1. auto. }
    exists rho'. split; [done|]. split.
    - rewrite R2, (M (nins n)); [done|]. intros x Hx. apply Hd. apply elem_of_app. by right.
    - apply gamma_inv. exists i, r, (map rho' es). split; [by rewrite R1, E1 by done|]. split; [done|]. rewrite (M outs); [by apply Hrun|]. intros x Hx. apply Hd. apply elem_of_app. by left.
  Qed.
  Lemma pull_wf n subs q es outs : wf_gamma (Node (KGamma subs) (q :: es) outs) -> NoDup (nouts n) -> wf_gamma (pull_node n (Node (KGamma subs) (q :: es) outs)).
  Proof.
    intros [H0 Hw] Hno. unfold wf_gamma. cbn [pull_node nkind nins nouts]. split; [cbn; lia|]. intros r' Hr'. apply elem_of_list_fmap in Hr' as (r & -> & Hr). destruct (Hw r Hr) as (W & L1 & L2). cbn [nins nouts length] in L1, L2. destruct (rargs r) as [|a0 as_] eqn:Ea; [done|]. cbn in L1.
    destruct (pull_into_wf es n r a0 as_ W Ea ltac:(lia) Hno) as (W' & L1' & L2'). split; [done|]. cbn [length]. rewrite app_length, L1', L2'. split; [lia|done].
  Qed.
End Pull.
