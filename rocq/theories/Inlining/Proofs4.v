(** Inlining keeps regions well-formed: along the path. *)
From stdpp Require Import base list gmap.
From Coq Require Import ZArith Lia.
From Verif.LocalRegion Require Import Model Spec Facts.
From Verif.Unswitch Require Import Model Spec Proofs1 Proofs2 Proofs3.
From Verif.Sinking Require Import Spec.
From Verif.Hoisting Require Import Model Spec Proofs1 Proofs2 Proofs3.
From Verif.Inlining Require Import Model Spec Proofs1 Proofs2 Proofs3.
Open Scope nat_scope.

Lemma add_vars_deep r i k N s s' news : deep r -> rnodes r !! i = Some N -> bodies N !! k = Some s -> deep s' -> rargs s' = rargs s ++ seq (region_bound s) (length news) -> length (rres s') = length (rres s) -> (forall x, x ∈ news -> x ∈ rargs r) ->
  deep (Region (rargs r) (alter (add_vars (region_bound r) k (fun _ _ => s') news) i (rnodes r)) (rres r)).
Proof.
    intros Hd HN Hs Hsub Ea Es Hnews. pose proof (delete_Permutation _ _ _ HN) as Hp. set (m := length news). set (next := region_bound r).
    assert (HNin : N ∈ rnodes r) by (by eapply elem_of_list_lookup_2). assert (Hds : deep s) by (eapply (deep_body r N); [done | done | by eapply elem_of_list_lookup_2]).
    assert (Hrk : exists rank, ranked r rank) by (destruct Hd as [r _ [rank Hr] _ _]; by exists rank). destruct Hrk as (rank & Hk & Ha).
    assert (Hearly : forall N0 x y, Some N = Some N0 -> x ∈ news -> y ∈ nouts N0 -> rank x < rank y) by (intros N0 x y [= <-] Hx Hy; eapply Ha; [by apply Hnews | exact HNin | done]). specialize (Hearly N).
    set (N' := add_vars next k (fun _ _ => s') news N). pose proof (alter_perm (add_vars next k (fun _ _ => s') news) _ _ _ HN) as Hp'. fold N' in Hp'. set (l := delete i (rnodes r)) in *. set (l' := alter (add_vars next k (fun _ _ => s') news) i (rnodes r)) in *.
    pose proof (deep_wf r Hd) as (Hnd & Hu & Hr). pose proof (deep_node r N Hd HNin) as HwN.
    assert (Hnews' : forall x, x ∈ news -> x ∈ names r) by (intros x Hx; apply elem_of_app; left; by apply Hnews). clear Hnews. rename Hnews' into Hnews.
    (* the node N' *)
    assert (HN' : exists extra, nins N' = nins N ++ (if decide (extra = None) then [] else news) /\ nouts N' = nouts N ++ (match extra with Some (Some tt) => seq next m | _ => [] end) /\ wf_node N' /\ forall b, b ∈ bodies N' -> deep b).
    { unfold N'. destruct N as [[o'|subs|b] nin nout]; [exfalso; clear -Hs; by destruct k| |].
      - exists (Some None). cbn [add_vars nins nouts bodies nkind]. split; [done|]. split; [by rewrite app_nil_r|]. cbn [bodies nkind] in Hs.
        assert (Hb : forall b, b ∈ imap (fun k' s => let a := seq (region_bound s) (length news) in let s := add_args s a in if decide (k' = k) then s' else s) subs ->
          deep b /\ length (rargs b) = length (nin ++ news) /\ length (rres b) = length nout).
        { intros b Hb. apply elem_of_list_lookup in Hb as [k' Hk']. rewrite list_lookup_imap in Hk'. apply fmap_Some in Hk' as (s0 & Hk' & Eb). destruct HwN as [_ Hw]. cbn [nkind nins nouts] in Hw. assert (Hs0 : s0 ∈ subs) by (by eapply elem_of_list_lookup_2). destruct (Hw s0 Hs0) as (W0 & L1 & L2).
          assert (Hd0 : deep s0) by exact (deep_body r _ s0 Hd HNin Hs0). cbn in Eb. case_decide as Ek.
          - subst k' b. rewrite Hs in Hk'. injection Hk' as <-. split; [done|]. rewrite Ea, Es, app_length, app_length, seq_length. split; [lia | done].
          - subst b. split; [by apply add_args_deep|]. cbn [add_args rargs rres]. rewrite !app_length, seq_length. split; [lia | done]. }
        split; [|intros b Hb'; by apply Hb]. unfold wf_node, wf_gamma. cbn [nkind nins nouts]. split; [destruct HwN as [H0 _]; cbn [nins] in H0; rewrite app_length; lia|]. intros b Hb'. destruct (Hb b Hb') as (H1 & H2 & H3). split; [by apply deep_wf | done].
      - exists (Some (Some tt)). cbn [add_vars nins nouts bodies nkind]. split; [done|]. split; [done|]. cbn [bodies nkind] in Hs. destruct k as [|k0]; [|done]. injection Hs as ->. fold m in Ea. destruct HwN as (L1 & L2 & L3). cbn [nkind nins nouts] in L1, L2, L3. fold m.
        split.
        + unfold wf_node. cbn [nkind nins nouts rargs rres]. rewrite Ea, !app_length, !seq_length, Es. fold m. lia.
        + intros b Hb. apply elem_of_list_singleton in Hb as ->. eapply (deep_res _ _ (rres s')); [by destruct s'|]. intros x Hx. apply elem_of_app in Hx as [Hx|Hx].
          * destruct (deep_wf s' Hsub) as (_ & _ & Hr'). specialize (Hr' x Hx). exact Hr'.
          * apply elem_of_app. left. cbn [rargs]. rewrite Ea. apply elem_of_app. by right. }
    destruct HN' as (extra & Ein & Eout & HwN' & HbN'). set (ein := if decide (extra = None) then [] else news) in *. set (eout := match extra with Some (Some tt) => seq next m | _ => [] end) in *.
    assert (Hein : forall x, x ∈ ein -> x ∈ news) by (intros x; unfold ein; case_decide; [intros Hx0; by apply elem_of_nil in Hx0 | done]).
    assert (Heout : forall x, x ∈ eout -> x ∉ names r) by (intros x; unfold eout; destruct extra as [[[]|]|]; [intros H Hx; apply region_bound_ok in Hx; apply seq_new in H; unfold next in H; lia | intros H; by apply elem_of_nil in H..]).
    assert (Neout : NoDup eout) by (unfold eout; destruct extra as [[[]|]|]; [apply seq_nodup | by constructor..]). clearbody ein eout.
    assert (Hnames : names (Region (rargs r) l' (rres r)) ≡ₚ eout ++ names r).
    { unfold names. cbn [rargs rnodes]. rewrite (all_outs_perm _ _ Hp'), (all_outs_perm _ _ Hp), !all_outs_cons, Eout. rewrite <- !app_assoc, (Permutation_app_swap_app (nouts N) eout (all_outs l)), (Permutation_app_swap_app (rargs r) eout). done. }
    assert (Hl'in : forall n, n ∈ l' -> n = N' \/ n ∈ rnodes r) by (intros n Hn; rewrite Hp' in Hn; apply elem_of_cons in Hn as [->|Hn]; [by left|]; right; rewrite Hp; by right).
    constructor; cbn [rargs rnodes rres].
    + split; [|split].
      * rewrite Hnames. apply NoDup_app. done.
      * intros n x Hn Hx. cbn [rnodes] in Hn. rewrite Hnames. apply elem_of_app. right. destruct (Hl'in n Hn) as [->|Hn']; [|by eapply Hu]. rewrite Ein in Hx. apply elem_of_app in Hx as [Hx|Hx]; [by eapply Hu | by apply Hnews, Hein].
      * intros x Hx. rewrite Hnames. apply elem_of_app. right. by apply Hr.
    + set (B := S (foldr max 0 (map rank (names r)))). assert (HB : forall x, x ∈ names r -> rank x < B) by (intros x Hx; pose proof (max_bound rank _ _ Hx); unfold B; lia).
      assert (Hold : forall x, x ∈ names r -> x ∉ eout) by (intros x Hx Hx'; by apply (Heout x)).
      exists (fun x => if decide (x ∈ eout) then B else rank x). cbn [rargs rnodes]. split.
      * intros n x y Hn Hx Hy. destruct (Hl'in n Hn) as [->|Hn'].
        -- rewrite Ein in Hx. rewrite Eout in Hy. assert (Hxr : x ∈ names r) by (apply elem_of_app in Hx as [Hx|Hx]; [by eapply Hu | by apply Hnews, Hein]). rewrite (decide_False (P := x ∈ eout)) by (by apply Hold). apply elem_of_app in Hy as [Hy|Hy].
           ++ rewrite decide_False; [|apply Hold; eapply rnodes_names; [done | exact HNin|]; apply elem_of_app; by right]. apply elem_of_app in Hx as [Hx|Hx]; [by eapply Hk|]. apply Hearly; [done | by apply Hein | done].
           ++ rewrite decide_True by done. by apply HB.
        -- rewrite !decide_False; [by eapply Hk | apply Hold; eapply rnodes_names; [done | exact Hn'|]; apply elem_of_app; by right | apply Hold; by eapply Hu].
      * intros x n y Hx Hn Hy. assert (Hxr : x ∈ names r) by (apply elem_of_app; by left). rewrite (decide_False (P := x ∈ eout)) by (by apply Hold). destruct (Hl'in n Hn) as [->|Hn'].
        -- rewrite Eout in Hy. apply elem_of_app in Hy as [Hy|Hy]; [|rewrite decide_True by done; by apply HB]. rewrite decide_False; [by eapply Ha|]. apply Hold. eapply rnodes_names; [done | exact HNin|]. apply elem_of_app; by right.
        -- rewrite decide_False; [by eapply Ha|]. apply Hold. eapply rnodes_names; [done | exact Hn'|]. apply elem_of_app; by right.
    + intros n Hn. destruct (Hl'in n Hn) as [->|Hn']; [done | exact (deep_node r n Hd Hn')].
    + intros n b Hn Hb. destruct (Hl'in n Hn) as [->|Hn']; [by apply HbN' | exact (deep_body r n b Hd Hn' Hb)].
Qed.

Lemma copied_wf s n n' : copied s n n' -> wf_node n -> wf_node n'.
Proof.
  intros (E & H1 & H2) Hw. apply Forall2_length in H1, H2. destruct n as [k ins outs], n' as [k' ins' outs']. cbn [nkind nins nouts] in *. subst k'. unfold wf_node, wf_gamma in *. cbn [nkind nins nouts] in *. by rewrite <- H1, <- H2.
Qed.
Lemma spliced_deep bar ptr callee j deps r r' id fn ops outs io bs tgts copies s next' news : spliced bar ptr callee j deps r r' id fn ops outs io bs tgts copies s next' news -> deep r -> deep callee -> (forall x, x ∈ deps -> x ∈ rargs r) -> deep r'.
Proof.
  intros Hs Hd Hdc Hdeps. assert (Hcal : wf_region callee) by (by apply deep_wf).
  pose proof (bs_nodes _ _ _ _ _ _ _ _ _ _ _ _ _ _ _ _ _ _ Hs) as Hbs. pose proof (copies_outs _ _ _ _ _ _ _ _ _ _ _ _ _ _ _ _ _ _ Hs Hcal) as Eco. pose proof (image _ _ _ _ _ _ _ _ _ _ _ _ _ _ _ _ _ _ Hs Hcal) as Him.
  pose proof (image_out _ _ _ _ _ _ _ _ _ _ _ _ _ _ _ _ _ _ Hs Hd Hcal Hdeps) as Hio. pose proof (operand_out _ _ _ _ _ _ _ _ _ _ _ _ _ _ _ _ _ _ Hs Hd Hdeps) as Hoo. pose proof (ops_names _ _ _ _ _ _ _ _ _ _ _ _ _ _ _ _ _ _ Hs Hd Hdeps) as Hon.
  pose proof (news_maps _ _ _ _ _ _ _ _ _ _ _ _ _ _ _ _ _ _ Hs) as Hnm. pose proof (news_length _ _ _ _ _ _ _ _ _ _ _ _ _ _ _ _ _ _ Hs) as Hnl. destruct (outs_nodup _ _ _ _ _ _ _ _ _ _ _ _ _ _ _ _ _ _ Hs Hd) as (No & Noa & Nod).
  pose proof (callee_nodup callee Hcal) as Hcn. pose proof (call_in _ _ _ _ _ _ _ _ _ _ _ _ _ _ _ _ _ _ Hs) as Hin. pose proof (outs_low _ _ _ _ _ _ _ _ _ _ _ _ _ _ _ _ _ _ Hs Hd) as Holow.
  destruct Hs as [Hj L1 L2 Eio Hb Hc Hn ->]. set (next := region_bound r) in *. set (f := divert outs news). pose proof (delete_Permutation _ _ _ Hj) as Hp. set (l := delete j (rnodes r)) in *.
  destruct (barriers_shape _ _ _ _ _ _ _ _ Hb) as (_ & So & St & _). pose proof Hcn as Hcn'. apply NoDup_app in Hcn' as (_ & _ & Hco). assert (Hcf : Forall2 (copied s) (rnodes callee) copies).
  { destruct (copy_nodes_ok _ _ _ _ _ _ Hc Hco) as (_ & _ & _ & E & _); [|exact E]. intros y Hy. by eapply keys_none. }
  pose proof (deep_wf r Hd) as (Hnd & Hu & Hr). assert (Hl' : forall n, n ∈ l -> n ∈ rnodes r) by (intros n Hn'; rewrite Hp; by right).
  set (L := l ++ bs ++ copies). assert (Eo : all_outs (map (divert_node f) L) = all_outs L) by (unfold all_outs; rewrite map_map; f_equal).
  assert (Ebc : all_outs (bs ++ copies) = seq next (length bs + length (all_outs (rnodes callee)))) by (rewrite all_outs_app, So, Eco; symmetry; apply seq_app).
  set (names' := rargs r ++ all_outs l ++ all_outs (bs ++ copies)). assert (En : names (Region (rargs r) (map (divert_node f) L) (map f (rres r))) = names') by (unfold names; cbn [rargs rnodes]; rewrite Eo; unfold L; by rewrite all_outs_app).
  assert (Hold : forall x, x ∈ names r -> x ∉ outs -> x ∈ names').
  { intros x Hx Hxo. unfold names in Hx. rewrite (all_outs_perm _ _ Hp), all_outs_cons in Hx. cbn [nouts] in Hx. unfold names'. rewrite !elem_of_app in *. tauto. }
  assert (Hnew : forall y, next <= y < next + (length bs + length (all_outs (rnodes callee))) -> y ∈ names') by (intros y Hy; unfold names'; rewrite Ebc, !elem_of_app; right; right; by apply elem_of_list_In, in_seq).
  assert (Hop : forall x, x ∈ ops ++ deps -> x ∈ names') by (intros x Hx; apply Hold; [by apply Hon | by apply Hoo]).
  assert (Htgt : forall y, y ∈ tgts -> y ∈ names') by (intros y Hy; destruct (St y Hy) as [Hx|Hx]; [by apply Hop | apply Hnew; lia]).
  assert (Himg : forall x y, s !! x = Some y -> y ∈ names') by (intros x y Hx; destruct (Him x y Hx) as [(i & _ & Hi)|(i & Hi & ->)]; [apply Htgt; by eapply elem_of_list_lookup_2 | apply Hnew; apply lookup_lt_Some in Hi; lia]).
  assert (Hnews : forall y, y ∈ news -> exists x, s !! x = Some y) by (intros y Hy; apply elem_of_list_lookup in Hy as [i Hi]; destruct (Forall2_lookup_r _ _ _ _ _ Hnm Hi) as (x & _ & Hx); by exists x).
  assert (Hf : forall x, x ∈ names r -> f x ∈ names') by (intros x Hx; unfold f; destruct (divert_cases outs news x No (eq_sym Hnl)) as [[Hx' ->]|[_ Hy]]; [by apply Hold | destruct (Hnews _ Hy) as [z Hz]; by eapply Himg]).
  assert (Hfid : forall x, x ∉ outs -> f x = x) by (intros x Hx; by apply divert_out).
  assert (Hiop : io ∈ ops ++ deps) by (apply elem_of_app; left; by eapply elem_of_list_lookup_2).
  assert (Hcopy : forall n, n ∈ copies -> exists n0, n0 ∈ rnodes callee /\ copied s n0 n) by (intros n Hn'; apply elem_of_list_lookup in Hn' as [t Ht]; destruct (Forall2_lookup_r _ _ _ _ _ Hcf Ht) as (n0 & Hn0 & Hc0); exists n0; split; [by eapply elem_of_list_lookup_2 | done]).
  assert (Hmaps : forall a b y, maps s a b -> y ∈ b -> exists x, x ∈ a /\ s !! x = Some y) by (intros a b y Hm Hy; apply elem_of_list_lookup in Hy as [t Ht]; destruct (Forall2_lookup_r _ _ _ _ _ Hm Ht) as (x & Hx & Ex); exists x; split; [by eapply elem_of_list_lookup_2 | done]).
  assert (Hmap : forall n', n' ∈ map (divert_node f) L -> exists n, n' = divert_node f n /\ n ∈ L) by (intros n' Hn'; apply elem_of_list_In, in_map_iff in Hn' as (n & <- & Hn'%elem_of_list_In); by exists n).
  constructor; cbn [rargs rnodes rres].
  - split; [|split].
    + rewrite En. unfold names'. rewrite Ebc. assert (Nl : NoDup (rargs r ++ all_outs l)). { unfold names in Hnd. rewrite (all_outs_perm _ _ Hp), all_outs_cons, Permutation_app_swap_app in Hnd. by apply NoDup_app in Hnd as (_ & _ & Hnd). }
      rewrite app_assoc. apply NoDup_app. split; [done|]. split; [|apply seq_nodup]. intros x Hx Hx'. apply seq_new in Hx'. assert (Hxr : x ∈ names r). { unfold names. rewrite (all_outs_perm _ _ Hp), all_outs_cons. rewrite !elem_of_app in *. tauto. } apply region_bound_ok in Hxr. fold next in Hxr. lia.
    + intros n' x Hn' Hx. rewrite En. cbn [rnodes] in Hn'. destruct (Hmap n' Hn') as (n & -> & Hn0). cbn [divert_node nins] in Hx. apply elem_of_list_In, in_map_iff in Hx as (z & <- & Hz%elem_of_list_In). unfold L in Hn0. apply elem_of_app in Hn0 as [Hn0|Hn0]; [apply Hf; by eapply Hu, Hz; apply Hl'|]. apply elem_of_app in Hn0 as [Hn0|Hn0].
      * destruct (Hbs n Hn0) as (x & y & -> & Hx & _). cbn [nins] in Hz. apply Hf, Hon. apply elem_of_cons in Hz as [->|Hz]; [done|]. by apply elem_of_list_singleton in Hz as ->.
      * destruct (Hcopy n Hn0) as (n0 & _ & _ & Hmi & _). destruct (Hmaps _ _ _ Hmi Hz) as (x & _ & Ex). rewrite Hfid by (by eapply Hio). by eapply Himg.
    + intros x Hx. rewrite En. cbn [rres] in Hx. apply elem_of_list_In, in_map_iff in Hx as (z & <- & Hz%elem_of_list_In). by apply Hf, Hr.
  - assert (Hrk : exists rank, ranked r rank) by (destruct Hd as [r0 _ [rank Hr0] _ _]; by exists rank). destruct Hrk as (rank & Hk & Ha). assert (Hck : exists crank, ranked callee crank) by (destruct Hdc as [r0 _ [rank0 Hr0] _ _]; by exists rank0). destruct Hck as (crank & Hck & Hca).
    set (K := S (S (S (foldr max 0 (map crank (all_outs (rnodes callee))))))). set (M := foldr max 0 (map rank (ops ++ deps ++ rargs r))).
    assert (HK : forall x, x ∈ all_outs (rnodes callee) -> S (S (crank x)) < K) by (intros x Hx; pose proof (max_bound crank _ _ Hx); unfold K; lia).
    assert (HM : forall x, x ∈ ops ++ deps ++ rargs r -> rank x <= M) by (intros x Hx; by apply (max_bound rank)).
    assert (HMo : forall x, x ∈ outs -> M < rank x).
    { intros x Hx. apply max_less; [specialize (Hk _ fn x Hin ltac:(by left) Hx); lia|]. intros z Hz. rewrite !elem_of_app in Hz. destruct Hz as [Hz|[Hz|Hz]]; [eapply (Hk _ z x Hin); [by right | done] | eapply Ha; [by apply Hdeps | exact Hin | done] | by eapply Ha]. }
    set (rank' := fun x => if decide (x < next) then K * rank x else if decide (x < next + length bs) then K * M + 1 else K * M + 2 + crank (nth (x - (next + length bs)) (all_outs (rnodes callee)) 0)).
    assert (Rold : forall x, x ∈ names r -> rank' x = K * rank x) by (intros x Hx; unfold rank'; apply region_bound_ok in Hx; fold next in Hx; by rewrite decide_True).
    assert (Rbs : forall x, next <= x < next + length bs -> rank' x = K * M + 1) by (intros x Hx; unfold rank'; rewrite decide_False by lia; by rewrite decide_True by lia).
    assert (Rcp : forall i x, all_outs (rnodes callee) !! i = Some x -> rank' (next + length bs + i) = K * M + 2 + crank x). { intros i x Hi. unfold rank'. rewrite !decide_False by lia. replace (next + length bs + i - (next + length bs)) with i by lia. by rewrite (nth_lookup_Some _ _ _ _ Hi). }
    assert (Rop : forall x, x ∈ ops ++ deps -> rank' x <= K * M). { intros x Hx. rewrite Rold by (by apply Hon). apply Nat.mul_le_mono_l. apply HM. rewrite !elem_of_app in *. tauto. }
    assert (Rtg : forall y, y ∈ tgts -> rank' y <= K * M + 1) by (intros y Hy; destruct (St y Hy) as [Hx|Hx]; [specialize (Rop y Hx); lia | rewrite Rbs by lia; lia]).
    assert (Rim : forall x y, s !! x = Some y -> rank' y < K * S M). { intros x y Hx. destruct (Him x y Hx) as [(i & _ & Hi)|(i & Hi & ->)]; [specialize (Rtg y ltac:(by eapply elem_of_list_lookup_2)); unfold K in *; lia|]. rewrite (Rcp _ _ Hi). specialize (HK x ltac:(by eapply elem_of_list_lookup_2)). lia. }
    assert (Routs : forall x n y, x ∈ outs -> n ∈ rnodes r -> x ∈ nins n -> y ∈ nouts n -> rank' (f x) < rank' y).
    { intros x n y Hx Hn0 Hxn Hy. rewrite (Rold y) by (eapply rnodes_names; [done | exact Hn0|]; apply elem_of_app; by right). assert (Hfx : f x ∈ news) by (unfold f; destruct (divert_cases outs news x No (eq_sym Hnl)) as [[Hx' _]|[_ Hy']]; done). destruct (Hnews _ Hfx) as [z Hz]. specialize (Rim _ _ Hz). specialize (HMo x Hx). specialize (Hk n x y Hn0 Hxn Hy). assert (K * S M <= K * rank y) by (apply Nat.mul_le_mono_l; lia). lia. }
    assert (Rnew : forall n0 n y, n0 ∈ rnodes callee -> copied s n0 n -> y ∈ nouts n -> exists y0, y0 ∈ nouts n0 /\ rank' y = K * M + 2 + crank y0).
    { intros n0 n y Hn0 (_ & _ & Hmo) Hy. destruct (Hmaps _ _ _ Hmo Hy) as (y0 & Hy0 & Ey). exists y0. split; [done|]. destruct (Him y0 y Ey) as [(i & Hi & _)|(i & Hi & ->)]; [|by apply Rcp]. exfalso. apply NoDup_app in Hcn as (_ & Hdis & _). apply (Hdis y0); [by eapply elem_of_list_lookup_2|]. apply elem_all_outs. by exists n0. }
    exists rank'. cbn [rargs rnodes]. split.
    + intros n' x y Hn' Hx Hy. destruct (Hmap n' Hn') as (n & -> & Hn0). cbn [divert_node nins nouts] in Hx, Hy. apply elem_of_list_In, in_map_iff in Hx as (z & <- & Hz%elem_of_list_In). unfold L in Hn0. apply elem_of_app in Hn0 as [Hn0|Hn0]; [|apply elem_of_app in Hn0 as [Hn0|Hn0]].
      * destruct (decide (z ∈ outs)) as [Hzo|Hzo]; [eapply Routs; [done | by apply Hl' | done | done]|]. rewrite Hfid by done. apply Hl' in Hn0. rewrite !Rold; [|eapply rnodes_names; [done | exact Hn0|]; apply elem_of_app; by right | by eapply Hu]. specialize (Hk n z y Hn0 Hz Hy). apply Nat.mul_lt_mono_pos_l; [unfold K; lia | done].
      * destruct (Hbs n Hn0) as (x & y' & -> & Hx & Hyr). cbn [nins nouts] in Hz, Hy. apply elem_of_list_singleton in Hy as ->. assert (Hz' : z ∈ ops ++ deps) by (apply elem_of_cons in Hz as [->|Hz]; [done|]; by apply elem_of_list_singleton in Hz as ->). rewrite Hfid by (by apply Hoo). specialize (Rop z Hz'). rewrite (Rbs y') by done. lia.
      * destruct (Hcopy n Hn0) as (n0 & Hc0 & Hcp). destruct (Rnew n0 n y Hc0 Hcp Hy) as (y0 & Hy0 & ->). destruct Hcp as (_ & Hmi & _). destruct (Hmaps _ _ _ Hmi Hz) as (z0 & Hz0 & Ez). rewrite Hfid by (by eapply Hio). destruct (Him z0 z Ez) as [(i & _ & Hi)|(i & Hi & ->)]; [specialize (Rtg z ltac:(by eapply elem_of_list_lookup_2)); lia|]. rewrite (Rcp _ _ Hi). specialize (Hck n0 z0 y0 Hc0 Hz0 Hy0). lia.
    + intros a n' y Hx Hn' Hy. destruct (Hmap n' Hn') as (n & -> & Hn0). cbn [divert_node nouts] in Hy. rewrite (Rold a) by (apply elem_of_app; by left). unfold L in Hn0. assert (Ham : K * rank a <= K * M) by (apply Nat.mul_le_mono_l, HM; rewrite !elem_of_app; tauto). apply elem_of_app in Hn0 as [Hn0|Hn0]; [|apply elem_of_app in Hn0 as [Hn0|Hn0]].
      * apply Hl' in Hn0. rewrite (Rold y) by (eapply rnodes_names; [done | exact Hn0|]; apply elem_of_app; by right). specialize (Ha a n y Hx Hn0 Hy). apply Nat.mul_lt_mono_pos_l; [unfold K; lia | done].
      * destruct (Hbs n Hn0) as (x & y' & -> & _ & Hyr). cbn [nouts] in Hy. apply elem_of_list_singleton in Hy as ->. rewrite (Rbs y') by done. lia.
      * destruct (Hcopy n Hn0) as (n0 & Hc0 & Hcp). destruct (Rnew n0 n y Hc0 Hcp Hy) as (y0 & Hy0 & ->). lia.
  - intros n' Hn'. destruct (Hmap n' Hn') as (n & -> & Hn0). apply divert_wf. unfold L in Hn0. apply elem_of_app in Hn0 as [Hn0|Hn0]; [apply (deep_node r n Hd), Hl', Hn0|]. apply elem_of_app in Hn0 as [Hn0|Hn0]; [by destruct (Hbs n Hn0) as (x & y & -> & _)|]. destruct (Hcopy n Hn0) as (n0 & Hc0 & Hcp). eapply copied_wf; [exact Hcp|]. by apply (deep_node callee).
  - intros n' b Hn' Hbb. destruct (Hmap n' Hn') as (n & -> & Hn0). change (bodies (divert_node f n)) with (bodies n) in Hbb. unfold L in Hn0. apply elem_of_app in Hn0 as [Hn0|Hn0]; [eapply (deep_body r n); [done | by apply Hl' | done]|]. apply elem_of_app in Hn0 as [Hn0|Hn0]; [destruct (Hbs n Hn0) as (x & y & -> & _); by apply elem_of_nil in Hbb|].
    destruct (Hcopy n Hn0) as (n0 & Hc0 & Ek & _). eapply (deep_body callee n0); [done | done|]. unfold bodies in *. by rewrite <- Ek.
Qed.
Lemma inline_deep bar ptr callee w : forall j deps r r', deep r -> deep callee -> (forall x, x ∈ deps -> x ∈ rargs r) -> inline bar ptr callee w j deps r = Some r' -> deep r'.
Proof.
  induction w as [|[i k] w IH]; intros j deps r r' Hd Hdc Hdeps H; cbn [inline] in H.
  - apply splice_parts in H as (id & fn & ops & outs & io & bs & tgts & copies & s & next' & news & Hs). by eapply spliced_deep.
  - apply bind_Some in H as (N & HN & H). apply bind_Some in H as (s & Hs & H). apply bind_Some in H as (s' & Hs' & [= <-]). destruct (inline_shape _ _ _ _ _ _ _ _ Hs') as [Ea Er]. cbn [add_args rargs rres] in Ea, Er.
    assert (Hds : deep s) by (eapply (deep_body r N); [done | by eapply elem_of_list_lookup_2 | by eapply elem_of_list_lookup_2]). eapply add_vars_deep; [done | exact HN | exact Hs | | exact Ea | exact Er | done].
    eapply IH; [|done| |exact Hs']; [by apply add_args_deep|]. intros x Hx. apply elem_of_app. by right.
Qed.
