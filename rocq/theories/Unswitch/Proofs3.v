(** Sinking nodes into the gamma node. *)
From stdpp Require Import base list gmap.
From Coq Require Import ZArith Lia.
From Verif.LocalRegion Require Import Model Spec Facts.
From Verif.Unswitch Require Import Model Spec Proofs1.

Lemma region_bound_ok r x : x ∈ names r -> x < region_bound r.
Proof. intros H. unfold region_bound, bound, names in *. pose proof (fold_max_in _ _ H). lia. Qed.
Lemma unique_owner l i j n m x : NoDup (all_outs l) -> l !! i = Some n -> l !! j = Some m -> x ∈ nouts n -> x ∈ nouts m -> i = j.
Proof.
  revert i j. induction l as [|a l IH]; intros i j Hn Hi Hj Hx Hy; [done|]. rewrite all_outs_cons in Hn. apply NoDup_app in Hn as (_ & Hd & Hn). destruct i as [|i], j as [|j]; cbn in Hi, Hj.
  - done.
  - injection Hi as ->. exfalso. apply (Hd x Hx). apply elem_all_outs. exists m. split; [by eapply elem_of_list_lookup_2 | done].
  - injection Hj as ->. exfalso. apply (Hd x Hy). apply elem_all_outs. exists n. split; [by eapply elem_of_list_lookup_2 | done].
  - f_equal. by eapply IH.
Qed.
Lemma elem_join {A} (x : A) (l : list (list A)) : x ∈ mjoin l <-> exists k, x ∈ k /\ k ∈ l.
Proof. apply elem_of_list_join. Qed.
Lemma node_uses_ok r x j t : (j, t) ∈ node_uses r x <-> exists m, rnodes r !! j = Some m /\ nins m !! t = Some x.
Proof.
  unfold node_uses. rewrite elem_join. split.
  - intros (k & Hk & Hin). apply elem_of_lookup_imap in Hin as (i & n & -> & Hi). apply elem_join in Hk as (k & Hk & Hin). apply elem_of_lookup_imap in Hin as (s & y & -> & Hs). destruct (decide (y = x)) as [->|]; [|by apply elem_of_nil in Hk]. apply elem_of_list_singleton in Hk. injection Hk as -> ->. by exists n.
  - intros (m & Hm & Ht). eexists. split; [|apply elem_of_lookup_imap; by exists j, m]. apply elem_join. eexists. split; [|apply elem_of_lookup_imap; by exists t, x]. rewrite decide_True by done. by apply elem_of_list_singleton.
Qed.
Lemma uses_sound r g x m j : rnodes r !! j = Some m -> x ∈ nins m -> (forallb (fun u => bool_decide (u.1 = g)) (node_uses r x)) = true -> j = g.
Proof.
  intros Hj Hx Hall. apply elem_of_list_lookup in Hx as [t Ht]. rewrite forallb_forall in Hall. assert (H : (j, t) ∈ node_uses r x) by (apply node_uses_ok; by exists m). apply elem_of_list_In in H. specialize (Hall _ H). by apply bool_decide_eq_true in Hall.
Qed.
Lemma result_uses_0 r x : result_uses r x = 0 -> x ∉ rres r.
Proof. unfold result_uses. intros H Hx. apply length_zero_iff_nil in H. assert (Hc : x ∈ filter (fun y => y = x) (rres r)) by (by apply elem_of_list_filter). rewrite H in Hc. by apply elem_of_nil in Hc. Qed.
Lemma elem_delete {A} (l : list A) g x : x ∈ delete g l -> exists j, j <> g /\ l !! j = Some x.
Proof.
  intros H. apply elem_of_list_lookup in H as [i Hi]. destruct (decide (i < g)) as [Hlt|Hge].
  - rewrite lookup_delete_lt in Hi by done. exists i. split; [lia | done].
  - rewrite lookup_delete_ge in Hi by lia. exists (S i). split; [lia | done].
Qed.

Section Sink.
  Context (other : nat -> list val -> option (list val)) (content : val -> val).
  Local Notation holds := (holds other content).
  Local Notation hold := (hold other content).
  Local Notation runs := (runs other content).
  Local Notation loops := (loops other content).
  Local Notation eval := (eval other content).
  Definition set (rho : nat -> val) (x : nat) (v : val) (y : nat) : val := if decide (y = x) then v else rho y.
  Lemma set_eq rho x v : set rho x v x = v.
  Proof. unfold set. by rewrite decide_True. Qed.
  Lemma set_ne rho x v y : y <> x -> set rho x v y = rho y.
  Proof. intros H. unfold set. by rewrite decide_False. Qed.
  Lemma set_map rho x v l : (forall y, y ∈ l -> y <> x) -> map (set rho x v) l = map rho l.
  Proof. intros H. apply map_ext_in. intros y Hy%elem_of_list_In. apply set_ne. auto. Qed.
  Lemma add_arg_res_iff r vs' us' : wf_region r -> runs (add_arg_res r) vs' us' <-> exists vs us v, vs' = vs ++ [v] /\ us' = us ++ [v] /\ runs r vs us.
  Proof.
    intros (Hn & Hu & Hr). rewrite runs_iff. unfold add_arg_res. cbn [rargs rnodes rres]. split.
    - intros (rho & <- & Hh & <-). rewrite !map_app. do 3 eexists. split; [reflexivity|]. split; [reflexivity|]. apply runs_iff. by exists rho.
    - intros (vs & us & v & -> & -> & Hrun). apply runs_iff in Hrun as (rho & <- & Hh & <-). exists (set rho (region_bound r) v).
      assert (Hne : forall y, y ∈ names r -> y <> region_bound r) by (intros y Hy; apply region_bound_ok in Hy; lia). rewrite !map_app. cbn [map]. rewrite !set_eq. split; [|split].
      + rewrite set_map; [done|]. intros y Hy. apply Hne. apply elem_of_app. by left.
      + eapply hold_ext; [|exact Hh]. intros n y Hin Hy. symmetry. apply set_ne, Hne. apply elem_of_app in Hy as [Hy|Hy]; [by eapply Hu|]. apply elem_of_app. right. apply elem_all_outs. by exists n.
      + rewrite set_map; [done|]. intros y Hy. by apply Hne, Hr.
  Qed.
  Lemma gamma_inv subs vs us : eval (KGamma subs) vs us <-> exists i r vs0, vs = VCtl i :: vs0 /\ subs !! i = Some r /\ runs r (content (VCtl i) :: vs0) us.
  Proof. split; [intros H; inversion H as [|s i r vs0 ws Hi Hr|]; subst; by exists i, r, vs0 | intros (i & r & vs0 & -> & Hi & Hr); by econstructor]. Qed.
  Lemma route_holds subs q es outs x next rho : wf_gamma (Node (KGamma subs) (q :: es) outs) -> holds rho (route (Node (KGamma subs) (q :: es) outs) x next) <-> holds rho (Node (KGamma subs) (q :: es) outs) /\ rho next = rho x.
  Proof.
    intros [_ Hw]. unfold Spec.holds. cbn [route nkind nins nouts app map]. rewrite !gamma_inv. rewrite !map_app. cbn [map]. split.
    - intros (i & r' & vs0 & E & Hi & Hr). injection E as E1 <-. change (map ?f ?m) with (f <$> m) in Hi. apply list_lookup_fmap_inv in Hi as (r & -> & Hi). destruct (Hw r) as (W & _); [by eapply elem_of_list_lookup_2|].
      apply add_arg_res_iff in Hr as (vs & us & v & Ev & Eu & Hr); [|done]. rewrite app_comm_cons in Ev. apply app_inj_tail in Ev as [<- <-]. apply app_inj_tail in Eu as [<- ->]. split; [|done]. exists i, r, (map rho es). by rewrite E1.
    - intros [(i & r & vs0 & E & Hi & Hr) En]. injection E as E1 <-. exists i, (add_arg_res r), (map rho es ++ [rho x]). split; [by rewrite E1|]. split; [change (map ?f ?m) with (f <$> m); by rewrite list_lookup_fmap, Hi|].
      destruct (Hw r) as (W & _); [by eapply elem_of_list_lookup_2|]. apply add_arg_res_iff; [done|]. do 3 eexists. split; [by rewrite app_comm_cons|]. split; [by rewrite En|]. done.
  Qed.
  Lemma names_add r : names (add_arg_res r) ≡ₚ region_bound r :: names r.
  Proof. unfold names, add_arg_res. cbn [rargs rnodes]. rewrite <-(assoc_L (++)). cbn [app]. by rewrite Permutation_middle. Qed.
  Lemma add_wf r : wf_region r -> wf_region (add_arg_res r).
  Proof.
    intros (Hn & Hu & Hr). split; [|split].
    - rewrite names_add. apply NoDup_cons. split; [|done]. intros Hc%region_bound_ok. lia.
    - intros n x Hin Hx. rewrite names_add. right. by eapply Hu.
    - intros x Hx. rewrite names_add. unfold add_arg_res in Hx. cbn [rres] in Hx. apply elem_of_app in Hx as [Hx| ->%elem_of_list_singleton]; [right; by apply Hr | by left].
  Qed.
  Lemma route_wf subs q es outs x next : wf_gamma (Node (KGamma subs) (q :: es) outs) -> wf_gamma (route (Node (KGamma subs) (q :: es) outs) x next).
  Proof.
    intros [H0 H]. unfold route. cbn [nkind nins nouts wf_gamma]. split; [cbn; lia|]. intros r' Hr'. apply elem_of_list_fmap in Hr' as (r & -> & Hr). destruct (H r Hr) as (W & L1 & L2). split; [by apply add_wf|]. unfold add_arg_res. cbn [rargs rres nins nouts] in *. rewrite !app_length. cbn [length] in *. lia.
  Qed.
  (** routing all post values *)
  Lemma route_all_ok posts : forall subs q es outs next g' posts', wf_gamma (Node (KGamma subs) (q :: es) outs) -> q < next -> (forall x, x ∈ es ++ outs ++ posts -> x < next) ->
    route_all (Node (KGamma subs) (q :: es) outs) posts next = (g', posts') ->
    exists subs' es' outs', g' = Node (KGamma subs') (q :: es ++ es') (outs ++ outs') /\ length subs' = length subs /\ wf_gamma g' /\ (forall x, x ∈ es' -> x ∈ posts /\ x ∉ outs) /\ (exists m, outs' = seq next m) /\ length posts' = length posts /\
      (forall x, x ∈ posts' -> x ∈ outs ++ outs') /\
      (forall rho, holds rho g' -> holds rho (Node (KGamma subs) (q :: es) outs) /\ map rho posts' = map rho posts) /\
      (forall rho, holds rho (Node (KGamma subs) (q :: es) outs) -> exists rho', (forall y, y < next -> rho' y = rho y) /\ holds rho' g' /\ map rho' posts' = map rho posts).
  Proof.
    induction posts as [|x posts IH]; intros subs q es outs next g' posts' Hw Hq Hlt; cbn [route_all].
    - intros [= <- <-]. exists subs, [], []. rewrite !app_nil_r. split; [done|]. split; [done|]. split; [done|]. split; [by intros x ?%elem_of_nil|]. split; [by exists 0|]. split; [done|]. split; [by intros x ?%elem_of_nil|]. split; [done|]. intros rho Hh. by exists rho.
    - cbn [nouts]. destruct (decide (x ∈ outs)) as [Hin|Hout].
      + destruct (route_all _ posts next) as [g1 posts1] eqn:E. intros [= <- <-].
        assert (Hlt' : forall y, y ∈ es ++ outs ++ posts -> y < next). { intros y Hy. apply Hlt. rewrite !elem_of_app in *. rewrite elem_of_cons. tauto. }
        destruct (IH _ _ _ _ _ _ _ Hw Hq Hlt' E) as (subs' & es' & outs' & -> & Hls & Hw' & He & Ho & Hl & Hp & Hb & Hf).
        exists subs', es', outs'. split; [done|]. split; [done|]. split; [done|]. split; [intros y Hy; destruct (He y Hy); split; [by right | done]|]. split; [done|]. split; [cbn; by rewrite Hl|]. split; [|split].
        * intros y [->|Hy]%elem_of_cons; [apply elem_of_app; by left | by apply Hp].
        * intros rho Hh. destruct (Hb rho Hh) as [H1 H2]. split; [done|]. cbn [map]. by rewrite H2.
        * intros rho Hh. destruct (Hf rho Hh) as (rho' & R1 & R2 & R3). exists rho'. split; [done|]. split; [done|]. cbn [map]. rewrite R3, (R1 x); [done|]. apply Hlt. rewrite !elem_of_app. tauto.
      + cbn [route nkind nins nouts app]. destruct (route_all _ posts (S next)) as [g1 posts1] eqn:E. intros [= <- <-]. pose proof (route_wf subs q es outs x next Hw) as Hw1. unfold route in Hw1. cbn [nkind nins nouts app] in Hw1.
        assert (Hx : x < next) by (apply Hlt; rewrite !elem_of_app, elem_of_cons; tauto).
        assert (Hlt' : forall y, y ∈ (es ++ [x]) ++ (outs ++ [next]) ++ posts -> y < S next).
        { intros y Hy. rewrite !elem_of_app, !elem_of_list_singleton in Hy. destruct Hy as [[Hy| ->]|[[Hy| ->]|Hy]]; [|lia| |lia|]; (assert (y < next); [|lia]); apply Hlt; rewrite !elem_of_app, elem_of_cons; tauto. }
        destruct (IH _ _ _ _ _ _ _ Hw1 (Nat.lt_lt_succ_r _ _ Hq) Hlt' E) as (subs' & es' & outs' & -> & Hls & Hw' & He & (m & ->) & Hl & Hp & Hb & Hf).
        exists subs', (x :: es'), (next :: seq (S next) m). rewrite <-!(assoc_L (++)). cbn [app]. rewrite map_length in Hls. split; [done|]. split; [done|]. rewrite <-!(assoc_L (++)) in Hw'. cbn [app] in Hw'. split; [done|]. split; [|split; [|split; [|split; [|split]]]].
        * intros y [->|Hy]%elem_of_cons; [split; [by left | done]|]. destruct (He y Hy) as [Hy1 Hy2]. split; [by right|]. intros Hc. apply Hy2. apply elem_of_app. by left.
        * exists (S m). done.
        * cbn. by rewrite Hl.
        * intros y [->|Hy]%elem_of_cons; [apply elem_of_app; right; by left|]. specialize (Hp y Hy). rewrite <-(assoc_L (++)) in Hp. exact Hp.
        * intros rho Hh. specialize (Hb rho). rewrite <-!(assoc_L (++)) in Hb. cbn [app] in Hb. destruct (Hb Hh) as [H1 H2]. apply (route_holds subs q es outs x next rho Hw) in H1 as [H1 H3]. split; [done|]. cbn [map]. by rewrite H2, H3.
        * intros rho Hh. destruct (Hf (set rho next (rho x))) as (rho' & R1 & R2 & R3).
          { apply (route_holds subs q es outs x next _ Hw). split; [|rewrite set_eq; symmetry; apply set_ne; lia]. eapply holds_ext; [| |exact Hh]; intros y Hy; symmetry; apply set_ne; cbn [nins nouts] in Hy.
            - apply elem_of_cons in Hy as [->|Hy]; [lia|]. assert (y < next); [|lia]. apply Hlt. rewrite !elem_of_app. tauto.
            - assert (y < next); [|lia]. apply Hlt. rewrite !elem_of_app. tauto. }
          rewrite <-!(assoc_L (++)) in R2. cbn [app] in R2. exists rho'. split; [|split; [done|]].
          -- intros y Hy. rewrite R1 by lia. apply set_ne. lia.
          -- cbn [map]. rewrite R3, (R1 next) by lia. rewrite set_eq. f_equal. apply set_map. intros y Hy. assert (y < next); [|lia]. apply Hlt. rewrite !elem_of_app, elem_of_cons. tauto.
  Qed.
End Sink.
