(** Hoisting keeps regions well-formed. *)
From stdpp Require Import base list gmap.
From Coq Require Import ZArith Lia.
From Verif.LocalRegion Require Import Model Spec Facts.
From Verif.Unswitch Require Import Model Spec Proofs1 Proofs2 Proofs3.
From Verif.Sinking Require Import Spec.
From Verif.Hoisting Require Import Model Spec Proofs1 Proofs2.
Open Scope nat_scope.

Definition ranked (r : region) (rank : nat -> nat) : Prop :=
  (forall n x y, n ∈ rnodes r -> x ∈ nins n -> y ∈ nouts n -> rank x < rank y) /\ forall a n y, a ∈ rargs r -> n ∈ rnodes r -> y ∈ nouts n -> rank a < rank y.
(** the values news are there before the node where the path goes on *)
Definition early (r : region) (w : list (nat * nat)) (news : list oid) : Prop :=
  match w with
  | [] => forall x, x ∈ news -> x ∈ rargs r
  | (i, _) :: _ => exists rank, ranked r rank /\ forall N x y, rnodes r !! i = Some N -> x ∈ news -> y ∈ nouts N -> rank x < rank y
  end.
Lemma early_args r w news : deep r -> (forall x, x ∈ news -> x ∈ rargs r) -> early r w news.
Proof. intros Hd Ha. destruct w as [|[i k] w]; [done|]. destruct Hd as [r _ [rank Hr] _ _]. exists rank. split; [done|]. intros N x y HN Hx Hy. destruct Hr as [_ Hr]. eapply Hr; [by apply Ha | by eapply elem_of_list_lookup_2 | done]. Qed.
Lemma deep_res A l res res' : deep (Region A l res) -> (forall x, x ∈ res' -> x ∈ names (Region A l res)) -> deep (Region A l res').
Proof. intros H Hr. inversion H as [r (Hn & Hu & _) Ha Hw Hb]; subst. constructor; [|done|done|done]. split; [done|]. split; [done|]. exact Hr. Qed.
Lemma max_bound (f : nat -> nat) l x : x ∈ l -> f x <= foldr max 0 (map f l).
Proof. intros Hx. apply fold_max_in. apply elem_of_list_In, in_map. by apply elem_of_list_In. Qed.
Lemma max_less (f : nat -> nat) l b : 0 < b -> (forall x, x ∈ l -> f x < b) -> foldr max 0 (map f l) < b.
Proof. intros Hb. induction l as [|x l IH]; intros H; [done|]. cbn. specialize (H x ltac:(by left)) as Hx. specialize (IH ltac:(intros y Hy; apply H; by right)). lia. Qed.

Lemma divert_cases (outs news : list nat) x : NoDup outs -> length news = length outs -> (x ∉ outs /\ divert outs news x = x) \/ (x ∈ outs /\ divert outs news x ∈ news).
Proof.
  intros Hn Hl. destruct (decide (x ∈ outs)) as [Hx|Hx]; [right | left; split; [done | by apply divert_out]]. split; [done|]. apply elem_of_list_lookup in Hx as [t Ht]. destruct (lookup_lt_is_Some_2 news t) as [y Hy]; [rewrite Hl; by eapply lookup_lt_Some|]. rewrite (divert_in _ _ _ _ _ Hn Ht Hy). by eapply elem_of_list_lookup_2.
Qed.
Lemma divert_wf f n : wf_node n -> wf_node (divert_node f n).
Proof. destruct n as [[o|subs|b] ins outs]; unfold wf_node, wf_gamma; cbn [divert_node nkind nins nouts]; rewrite ?map_length; done. Qed.

Lemma route_deep w : forall j r news o ins outs, deep r -> node_at w j r = Some (Node (KSimple o) ins outs) -> (forall x, x ∈ news -> x ∈ names r) -> early r w news -> length news = length outs -> deep (route w j news r).
Proof.
  induction w as [|[i k] w IH]; intros j r news o ins outs Hd Hat Hnews He Hl; cbn [node_at route early] in *.
  - rewrite Hat. cbn [nouts]. set (f := divert outs news). pose proof (delete_Permutation _ _ _ Hat) as Hp. destruct Hd as [r (Hnd & Hu & Hr) [rank [Hk Ha]] Hw Hb].
    pose proof Hnd as Hnd0. apply NoDup_app in Hnd0 as (Na & Hao & No). rewrite (all_outs_perm _ _ Hp), all_outs_cons in No. apply NoDup_app in No as (No & Hoo & Nr). cbn [nouts] in No, Hoo.
    set (l := delete j (rnodes r)) in *. assert (Hl' : forall n, n ∈ l -> n ∈ rnodes r) by (intros n Hn; rewrite Hp; by right).
    assert (Eo : all_outs (map (divert_node f) l) = all_outs l) by (unfold all_outs; rewrite map_map; f_equal).
    assert (Hin : Node (KSimple o) ins outs ∈ rnodes r) by (rewrite Hp; by left).
    assert (Hf : forall x, x ∈ names r -> f x ∈ rargs r ++ all_outs l).
    { intros x Hx. unfold f. destruct (divert_cases outs news x No Hl) as [[Hx' ->]|[_ Hy]]; [|apply elem_of_app; left; by apply He]. unfold names in Hx. rewrite (all_outs_perm _ _ Hp), all_outs_cons in Hx. cbn [nouts] in Hx. apply elem_of_app in Hx as [Hx|Hx]; [apply elem_of_app; by left|]. apply elem_of_app in Hx as [Hx|Hx]; [done|]. apply elem_of_app. by right. }
    assert (Hmap : forall n', n' ∈ map (divert_node f) l -> exists n, n' = divert_node f n /\ n ∈ rnodes r) by (intros n' Hn'; apply elem_of_list_In, in_map_iff in Hn' as (n & <- & Hn%elem_of_list_In); exists n; auto).
    constructor; cbn [rargs rnodes rres].
    + unfold wf_region, names. cbn [rargs rnodes rres]. rewrite Eo. split; [|split].
      * apply NoDup_app. split; [done|]. split; [|done]. intros x Hx Hx'. apply (Hao x Hx). rewrite (all_outs_perm _ _ Hp), all_outs_cons. apply elem_of_app. by right.
      * intros n' x Hn' Hx. destruct (Hmap n' Hn') as (n & -> & Hn). cbn [divert_node nins] in Hx. apply elem_of_list_In, in_map_iff in Hx as (y & <- & Hy%elem_of_list_In). apply Hf. by eapply Hu.
      * intros x Hx. apply elem_of_list_In, in_map_iff in Hx as (y & <- & Hy%elem_of_list_In). by apply Hf, Hr.
    + exists rank. cbn [rargs rnodes]. split.
      * intros n' x y Hn' Hx Hy. destruct (Hmap n' Hn') as (n & -> & Hn). cbn [divert_node nins nouts] in Hx, Hy. apply elem_of_list_In, in_map_iff in Hx as (z & <- & Hz%elem_of_list_In). destruct (divert_cases outs news z No Hl) as [[_ Ez]|[_ Hz']]; [fold f in Ez; rewrite Ez; by eapply Hk|]; fold f in Hz'. eapply Ha; [by apply He | exact Hn | done].
      * intros a n' y Hx Hn' Hy. destruct (Hmap n' Hn') as (n & -> & Hn). by eapply Ha.
    + intros n' Hn'. destruct (Hmap n' Hn') as (n & -> & Hn). by apply divert_wf, Hw.
    + intros n' b Hn' Hbb. destruct (Hmap n' Hn') as (n & -> & Hn). by eapply Hb.
  - apply bind_Some in Hat as (N & HN & Hat). apply bind_Some in Hat as (s & Hs & Hat). pose proof (delete_Permutation _ _ _ HN) as Hp. set (m := length news). set (next := region_bound r).
    assert (HNin : N ∈ rnodes r) by (by eapply elem_of_list_lookup_2). assert (Hds : deep s) by (eapply deep_body; [done | done | by eapply elem_of_list_lookup_2]). destruct He as (rank & [Hk Ha] & Hearly). specialize (Hearly N).
    set (N' := add_vars next k (fun a s => route w j a s) news N). pose proof (alter_perm (add_vars next k (fun a s => route w j a s) news) _ _ _ HN) as Hp'. fold N' in Hp'. set (l := delete i (rnodes r)) in *. set (l' := alter (add_vars next k (fun a s => route w j a s) news) i (rnodes r)) in *.
    pose proof (deep_wf r Hd) as (Hnd & Hu & Hr). pose proof (deep_node r N Hd HNin) as HwN.
    assert (Hsub : deep (route w j (seq (region_bound s) m) (add_args s (seq (region_bound s) m)))).
    { eapply IH; [by apply add_args_deep | rewrite <- Hat; destruct s as [A l0 res]; apply node_at_args | | | by rewrite seq_length].
      - intros x Hx. apply elem_of_app. left. apply elem_of_app. by right.
      - apply early_args; [by apply add_args_deep|]. intros x Hx. apply elem_of_app. by right. }
    (* the node N' *)
    assert (HN' : exists extra, nins N' = nins N ++ (if decide (extra = None) then [] else news) /\ nouts N' = nouts N ++ (match extra with Some (Some tt) => seq next m | _ => [] end) /\ wf_node N' /\ forall b, b ∈ bodies N' -> deep b).
    { unfold N'. destruct N as [[o'|subs|b] nin nout]; [exfalso; clear -Hs; by destruct k| |].
      - exists (Some None). cbn [add_vars nins nouts bodies nkind]. split; [done|]. split; [by rewrite app_nil_r|]. cbn [bodies nkind] in Hs.
        assert (Hb : forall b, b ∈ imap (fun k' s => let a := seq (region_bound s) (length news) in let s := add_args s a in if decide (k' = k) then route w j a s else s) subs ->
          deep b /\ length (rargs b) = length (nin ++ news) /\ length (rres b) = length nout).
        { intros b Hb. apply elem_of_list_lookup in Hb as [k' Hk']. rewrite list_lookup_imap in Hk'. apply fmap_Some in Hk' as (s0 & Hk' & Eb). destruct HwN as [_ Hw]. cbn [nkind nins nouts] in Hw. assert (Hs0 : s0 ∈ subs) by (by eapply elem_of_list_lookup_2). destruct (Hw s0 Hs0) as (W0 & L1 & L2).
          assert (Hd0 : deep s0) by exact (deep_body r _ s0 Hd HNin Hs0). cbn in Eb. case_decide as Ek.
          - subst k' b. rewrite Hs in Hk'. injection Hk' as <-. split; [done|]. rewrite route_args. cbn [add_args rargs]. rewrite !app_length, seq_length. split; [lia|]. destruct w as [|[i0 k0] w0]; cbn [route]; [destruct (rnodes (add_args s _) !! j)|]; cbn [add_args rres]; rewrite ?map_length; done.
          - subst b. split; [by apply add_args_deep|]. cbn [add_args rargs rres]. rewrite !app_length, seq_length. split; [lia | done]. }
        split; [|intros b Hb'; by apply Hb]. unfold wf_node, wf_gamma. cbn [nkind nins nouts]. split; [destruct HwN as [H0 _]; cbn [nins] in H0; rewrite app_length; lia|]. intros b Hb'. destruct (Hb b Hb') as (H1 & H2 & H3). split; [by apply deep_wf | done].
      - exists (Some (Some tt)). cbn [add_vars nins nouts bodies nkind]. split; [done|]. split; [done|]. cbn [bodies nkind] in Hs. destruct k as [|k0]; [|done]. injection Hs as ->. destruct HwN as (L1 & L2 & L3). cbn [nkind nins nouts] in L1, L2, L3. fold m. set (s' := route w j (seq (region_bound s) m) (add_args s (seq (region_bound s) m))) in *.
        assert (Es : length (rres s') = length (rres s)) by (unfold s'; destruct w as [|[i0 k0] w0]; cbn [route]; [destruct (rnodes (add_args s _) !! j)|]; cbn [add_args rres]; rewrite ?map_length; done).
        assert (Ea : rargs s' = rargs s ++ seq (region_bound s) m) by (unfold s'; by rewrite route_args).
        split.
        + unfold wf_node. cbn [nkind nins nouts rargs rres]. rewrite Ea, !app_length, !seq_length, Es. fold m. lia.
        + intros b Hb. apply elem_of_list_singleton in Hb as ->. eapply (deep_res _ _ (rres s')); [by destruct s'|]. intros x Hx. apply elem_of_app in Hx as [Hx|Hx].
          * destruct (deep_wf s' Hsub) as (_ & _ & Hr'). specialize (Hr' x Hx). exact Hr'.
          * apply elem_of_app. left. cbn [rargs]. rewrite Ea. apply elem_of_app. by right. }
    destruct HN' as (extra & Ein & Eout & HwN' & HbN'). set (ein := if decide (extra = None) then [] else news) in *. set (eout := match extra with Some (Some tt) => seq next m | _ => [] end) in *.
    assert (Hein : forall x, x ∈ ein -> x ∈ news) by (intros x; unfold ein; case_decide; [intros Hx0; by apply elem_of_nil in Hx0 | done]).
    assert (Heout : forall x, x ∈ eout -> x ∉ names r) by (intros x; unfold eout; destruct extra as [[[]|]|]; [intros H Hx; apply region_bound_ok in Hx; apply seq_new in H; unfold next in H; lia | intros H; by apply elem_of_nil in H..]).
    assert (Neout : NoDup eout) by (unfold eout; destruct extra as [[[]|]|]; [apply seq_nodup | by constructor..]). clearbody ein eout.
    assert (Hnames : names (Region (rargs r) l' (rres r)) ≡ₚ eout ++ names r).
    { unfold names. cbn [rargs rnodes]. rewrite (all_outs_perm _ _ Hp'), (all_outs_perm _ _ Hp), !all_outs_cons, Eout. rewrite <- !app_assoc, (Permutation_app_swap_app (nouts N) eout (all_outs l)), (Permutation_app_swap_app (rargs r) eout). done. }
    assert (Hl'in : forall n, n ∈ l' -> n = N' \/ n ∈ rnodes r) by (intros n Hn; rewrite Hp' in Hn; apply elem_of_cons in Hn as [->|Hn]; [by left|]; right; rewrite Hp; by right).
    constructor; cbn [rargs rnodes rres].
    + split; [|split].
      * rewrite Hnames. apply NoDup_app. done.
      * intros n x Hn Hx. cbn [rnodes] in Hn. rewrite Hnames. apply elem_of_app. right. destruct (Hl'in n Hn) as [->|Hn']; [|by eapply Hu]. rewrite Ein in Hx. apply elem_of_app in Hx as [Hx|Hx]; [by eapply Hu | by apply Hnews, Hein].
      * intros x Hx. rewrite Hnames. apply elem_of_app. right. by apply Hr.
    + set (B := S (foldr max 0 (map rank (names r)))). assert (HB : forall x, x ∈ names r -> rank x < B) by (intros x Hx; pose proof (max_bound rank _ _ Hx); unfold B; lia).
      assert (Hold : forall x, x ∈ names r -> x ∉ eout) by (intros x Hx Hx'; by apply (Heout x)).
      exists (fun x => if decide (x ∈ eout) then B else rank x). cbn [rargs rnodes]. split.
      * intros n x y Hn Hx Hy. destruct (Hl'in n Hn) as [->|Hn'].
        -- rewrite Ein in Hx. rewrite Eout in Hy. assert (Hxr : x ∈ names r) by (apply elem_of_app in Hx as [Hx|Hx]; [by eapply Hu | by apply Hnews, Hein]). rewrite (decide_False (P := x ∈ eout)) by (by apply Hold). apply elem_of_app in Hy as [Hy|Hy].
           ++ rewrite decide_False; [|apply Hold; eapply rnodes_names; [done | exact HNin|]; apply elem_of_app; by right]. apply elem_of_app in Hx as [Hx|Hx]; [by eapply Hk|]. apply Hearly; [done | by apply Hein | done].
           ++ rewrite decide_True by done. by apply HB.
        -- rewrite !decide_False; [by eapply Hk | apply Hold; eapply rnodes_names; [done | exact Hn'|]; apply elem_of_app; by right | apply Hold; by eapply Hu].
      * intros x n y Hx Hn Hy. assert (Hxr : x ∈ names r) by (apply elem_of_app; by left). rewrite (decide_False (P := x ∈ eout)) by (by apply Hold). destruct (Hl'in n Hn) as [->|Hn'].
        -- rewrite Eout in Hy. apply elem_of_app in Hy as [Hy|Hy]; [|rewrite decide_True by done; by apply HB]. rewrite decide_False; [by eapply Ha|]. apply Hold. eapply rnodes_names; [done | exact HNin|]. apply elem_of_app; by right.
        -- rewrite decide_False; [by eapply Ha|]. apply Hold. eapply rnodes_names; [done | exact Hn'|]. apply elem_of_app; by right.
    + intros n Hn. destruct (Hl'in n Hn) as [->|Hn']; [done | exact (deep_node r n Hd Hn')].
    + intros n b Hn Hb. destruct (Hl'in n Hn) as [->|Hn']; [by apply HbN' | exact (deep_body r n b Hd Hn' Hb)].
Qed.
