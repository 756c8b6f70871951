(** The body in place of the call: what is computed. *)
From stdpp Require Import base list gmap.
From Coq Require Import ZArith Lia.
From Verif.LocalRegion Require Import Model Spec Facts.
From Verif.Unswitch Require Import Model Spec Proofs1 Proofs2 Proofs3.
From Verif.Sinking Require Import Spec.
From Verif.Hoisting Require Import Model Spec Proofs1 Proofs2.
From Verif.Inlining Require Import Model Spec Proofs1.
Open Scope nat_scope.

Section Barriers.
  Context (bar : nat) (ptr : nat -> bool).
  Lemma barriers_shape io xs : forall p next l ys, barriers bar ptr io xs p next = (l, ys) ->
    length ys = length xs /\ all_outs l = seq next (length l) /\ (forall y, y ∈ ys -> y ∈ xs \/ next <= y < next + length l) /\
    forall n, n ∈ l -> exists x y, n = Node (KSimple (OOther bar)) [x; io] [y] /\ x ∈ xs.
  Proof.
    induction xs as [|x xs IH]; intros p next l ys H; cbn [barriers] in H.
    - injection H as <- <-. split; [done|]. split; [done|]. split; intros ? Hx; by apply elem_of_nil in Hx.
    - destruct (ptr p).
      + destruct (barriers bar ptr io xs (S p) (S next)) as [l0 ys0] eqn:E. injection H as <- <-. destruct (IH _ _ _ _ E) as (H1 & H2 & H3 & H4). cbn [length seq]. split; [by rewrite H1|]. split; [rewrite all_outs_cons; cbn [nouts]; by rewrite H2|]. split.
        * intros y [->|Hy]%elem_of_cons; [right; lia|]. destruct (H3 y Hy) as [Hx|Hr]; [left; by right | right; lia].
        * intros n [->|Hn]%elem_of_cons; [exists x, next; split; [done | by left]|]. destruct (H4 n Hn) as (x' & y & -> & Hx). exists x', y. split; [done | by right].
      + destruct (barriers bar ptr io xs (S p) next) as [l0 ys0] eqn:E. injection H as <- <-. destruct (IH _ _ _ _ E) as (H1 & H2 & H3 & H4). split; [cbn; by rewrite H1|]. split; [done|]. split.
        * intros y [->|Hy]%elem_of_cons; [left; by left|]. destruct (H3 y Hy) as [Hx|Hr]; [left; by right | by right].
        * intros n Hn. destruct (H4 n Hn) as (x' & y & -> & Hx). exists x', y. split; [done | by right].
  Qed.
  Context (other : nat -> list val -> option (list val)) (content : val -> val).
  Hypothesis Hbar : barrier other bar.
  Notation hold := (hold other content).
  Lemma barriers_bwd io xs rho : forall p next l ys, barriers bar ptr io xs p next = (l, ys) -> hold rho l -> map rho ys = map rho xs.
  Proof using Hbar.
    induction xs as [|x xs IH]; intros p next l ys H Hh; cbn [barriers] in H; [by injection H as <- <-|]. destruct (ptr p).
    - destruct (barriers bar ptr io xs (S p) (S next)) as [l0 ys0] eqn:E. injection H as <- <-. apply hold_cons in Hh as [H1 H2]. cbn [map]. rewrite (IH _ _ _ _ E H2). f_equal. unfold holds in H1. cbn [nkind nins nouts map] in H1. inversion H1 as [o vs ws Ho| |]; subst. cbn [op_sem] in Ho. rewrite Hbar in Ho. by injection Ho.
    - destruct (barriers bar ptr io xs (S p) next) as [l0 ys0] eqn:E. injection H as <- <-. cbn [map]. by rewrite (IH _ _ _ _ E Hh).
  Qed.
  Lemma barriers_fwd io xs rho : forall p next l ys, barriers bar ptr io xs p next = (l, ys) -> io < next -> (forall x, x ∈ xs -> x < next) ->
    exists rho', (forall x, x ∉ seq next (length l) -> rho' x = rho x) /\ hold rho' l /\ map rho' ys = map rho xs.
  Proof using Hbar.
    induction xs as [|x xs IH]; intros p next l ys H Hio Hx; cbn [barriers] in H.
    - injection H as <- <-. exists rho. split; [done|]. split; [|done]. intros n Hn. by apply elem_of_nil in Hn.
    - assert (Hx0 : x < next) by (apply Hx; by left). assert (Hx1 : forall x, x ∈ xs -> x < next) by (intros z Hz; apply Hx; by right). destruct (ptr p).
      + destruct (barriers bar ptr io xs (S p) (S next)) as [l0 ys0] eqn:E. injection H as <- <-. destruct (IH _ _ _ _ E) as (rho1 & E1 & E2 & E3); [lia | intros z Hz; specialize (Hx1 z Hz); lia|]. destruct (barriers_shape _ _ _ _ _ _ E) as (S1 & S2 & S3 & S4).
        exists (fun y => if decide (y = next) then rho x else rho1 y). cbn [length seq].
        assert (Hl : forall y, y ∈ seq (S next) (length l0) -> S next <= y < S next + length l0) by (intros y Hy%elem_of_list_In%in_seq; lia). assert (Hout : forall y, y < S next -> rho1 y = rho y) by (intros y Hy; apply E1; intros Hy'%Hl; lia).
        split; [|split].
        * intros y Hy. apply not_elem_of_cons in Hy as [Hy1 Hy2]. rewrite decide_False by done. by apply E1.
        * apply hold_cons. split.
          -- unfold holds. cbn [nkind nins nouts map]. constructor. cbn [op_sem]. rewrite decide_False by lia. rewrite (decide_True (P := next = next)) by done. rewrite Hbar. by rewrite Hout by lia.
          -- eapply hold_ext; [|exact E2]. intros n y Hn Hy. destruct (S4 n Hn) as (x' & y' & -> & Hx'). cbn [nins nouts] in Hy. rewrite decide_False; [done|]. intros ->. cbn [app] in Hy. apply elem_of_cons in Hy as [->|Hy]; [specialize (Hx1 _ Hx'); lia|].
             apply elem_of_cons in Hy as [->|Hy]; [lia|]. apply elem_of_list_singleton in Hy as ->. assert (Hin : y' ∈ all_outs l0) by (apply elem_all_outs; eexists; split; [exact Hn | by left]). rewrite S2 in Hin. apply Hl in Hin. lia.
        * cbn [map]. rewrite decide_True by done. f_equal. rewrite <- E3. apply map_ext_in. intros y Hy%elem_of_list_In. rewrite decide_False; [done|]. destruct (S3 y Hy) as [Hy'|Hy']; [specialize (Hx1 y Hy'); lia | lia].
      + destruct (barriers bar ptr io xs (S p) next) as [l0 ys0] eqn:E. injection H as <- <-. destruct (IH _ _ _ _ E) as (rho1 & E1 & E2 & E3); [done..|]. exists rho1. split; [done|]. split; [done|]. cbn [map]. rewrite E3. f_equal. apply E1. intros Hy%elem_of_list_In%in_seq. lia.
  Qed.
End Barriers.

(** all there is to know about a call that was replaced *)
Record spliced (bar : nat) (ptr : nat -> bool) (callee : region) (j : nat) (deps : list oid) (r r' : region) (id : nat) (fn : oid) (ops outs : list oid) (io : oid) (bs : list node) (tgts : list oid) (copies : list node) (s : gmap nat nat) (next' : nat) (news : list oid) : Prop := Spliced {
  sp_call : rnodes r !! j = Some (Node (KSimple (OOther id)) (fn :: ops) outs);
  sp_args : length (rargs callee) = length ops + length deps;
  sp_res : length (rres callee) = length outs;
  sp_io : ops !! (length ops - 2) = Some io;
  sp_bs : barriers bar ptr io (ops ++ deps) 0 (region_bound r) = (bs, tgts);
  sp_copies : copy_nodes (rnodes callee) (insert_all (rargs callee) tgts ∅) (region_bound r + length bs) = Some (copies, s, next');
  sp_news : mapM (fun x => s !! x) (rres callee) = Some news;
  sp_eq : r' = Region (rargs r) (map (divert_node (divert outs news)) (delete j (rnodes r) ++ bs ++ copies)) (map (divert outs news) (rres r)) }.
Lemma splice_parts bar ptr callee j deps r r' : splice bar ptr callee j deps r = Some r' -> exists id fn ops outs io bs tgts copies s next' news, spliced bar ptr callee j deps r r' id fn ops outs io bs tgts copies s next' news.
Proof.
  unfold splice. intros H. destruct (rnodes r !! j) as [[[[| | | | | |id]|subs|b] [|fn ops] outs]|] eqn:Ej; try done. case_decide as Hl; [|done]. destruct Hl as (L1 & L2 & _). apply bind_Some in H as (io & Hio & H). destruct (barriers bar ptr io (ops ++ deps) 0 (region_bound r)) as [bs tgts] eqn:Eb.
  apply bind_Some in H as ([[copies s] next'] & Hc & H). apply bind_Some in H as (news & Hn & [= <-]). by exists id, fn, ops, outs, io, bs, tgts, copies, s, next', news.
Qed.

Section Splice.
  Context (other : nat -> list val -> option (list val)) (content : val -> val) (bar : nat) (ptr : nat -> bool).
  Notation hold := (hold other content).
  Notation holds := (holds other content).
  Notation runs := (runs other content).
  Context (callee r r' : region) (j : nat) (deps : list oid) (id : nat) (fn : oid) (ops outs : list oid) (io : oid) (bs : list node) (tgts : list oid) (copies : list node) (s : gmap nat nat) (next' : nat) (news : list oid).
  Hypothesis Hs : spliced bar ptr callee j deps r r' id fn ops outs io bs tgts copies s next' news.
  Hypothesis Hd : deep r.
  Hypothesis Hcal : wf_region callee.
  Hypothesis Hdeps : forall x, x ∈ deps -> x ∈ rargs r.
  Let next : nat := region_bound r.
  Lemma call_in : Node (KSimple (OOther id)) (fn :: ops) outs ∈ rnodes r.
  Proof using Hs. destruct Hs. by eapply elem_of_list_lookup_2. Qed.
  Lemma ops_names x : x ∈ ops ++ deps -> x ∈ names r.
  Proof using Hs Hd Hdeps.
    intros [Hx|Hx]%elem_of_app; [|apply elem_of_app; left; by apply Hdeps]. eapply rnodes_names; [done | exact call_in|]. apply elem_of_app. left. by right.
  Qed.
  Lemma io_names : io ∈ names r.
  Proof using Hs Hd Hdeps. apply ops_names, elem_of_app. left. destruct Hs. by eapply elem_of_list_lookup_2. Qed.
  Lemma tgts_low y : y ∈ tgts -> y < next + length bs.
  Proof using Hs Hd Hdeps. intros Hy. destruct Hs as [_ _ _ _ Hb _ _ _]. destruct (barriers_shape _ _ _ _ _ _ _ _ Hb) as (_ & _ & H & _). destruct (H y Hy) as [Hx|Hx]; [|unfold next; lia]. apply ops_names, region_bound_ok in Hx. unfold next. lia. Qed.
  Lemma tgts_length : length (rargs callee) = length tgts.
  Proof using Hs. destruct Hs as [_ L _ _ Hb _ _ _]. destruct (barriers_shape _ _ _ _ _ _ _ _ Hb) as (-> & _). by rewrite app_length. Qed.
  Lemma news_maps : maps s (rres callee) news.
  Proof using Hs. apply mapM_maps. by destruct Hs. Qed.
  Lemma news_length : length outs = length news.
  Proof using Hs. pose proof news_maps as H. apply Forall2_length in H. destruct Hs. lia. Qed.
  Lemma outs_nodup : NoDup outs /\ (forall x, x ∈ outs -> x ∉ rargs r) /\ forall x, x ∈ outs -> x ∉ all_outs (delete j (rnodes r)).
  Proof using Hs Hd.
    destruct Hs as [Hj _ _ _ _ _ _ _]. destruct (deep_wf r Hd) as (Hnd & _). apply NoDup_app in Hnd as (_ & Ha & Hnd). rewrite (all_outs_perm _ _ (delete_Permutation _ _ _ Hj)), all_outs_cons in Hnd. apply NoDup_app in Hnd as (H1 & H2 & _). split; [done|]. split; [|done].
    intros x Hx Hx'. apply (Ha x Hx'). apply elem_all_outs. eexists. split; [exact call_in | done].
  Qed.
  Lemma callee_nodup : NoDup (rargs callee ++ all_outs (rnodes callee)).
  Proof using Hcal. by destruct Hcal. Qed.
  (** no node of the result has an output of the call *)
  Lemma bs_nodes n : n ∈ bs -> exists x y, n = Node (KSimple (OOther bar)) [x; io] [y] /\ x ∈ ops ++ deps /\ next <= y < next + length bs.
  Proof using Hs.
    intros Hn. destruct Hs as [_ _ _ _ Hb _ _ _]. destruct (barriers_shape _ _ _ _ _ _ _ _ Hb) as (_ & Ho & _ & H). destruct (H n Hn) as (x & y & -> & Hx). exists x, y. split; [done|]. split; [done|].
    assert (Hy : y ∈ all_outs bs) by (apply elem_all_outs; eexists; split; [exact Hn | by left]). rewrite Ho in Hy. apply elem_of_list_In, in_seq in Hy. done.
  Qed.
  Lemma copies_outs : all_outs copies = seq (next + length bs) (length (all_outs (rnodes callee))).
  Proof using Hs Hcal. pose proof callee_nodup as Hcn. apply NoDup_app in Hcn as (_ & _ & Hco). destruct Hs as [_ _ _ _ _ Hc _ _]. destruct (copy_nodes_ok _ _ _ _ _ _ Hc Hco) as (_ & _ & _ & _ & Eo); [intros y Hy; eapply keys_none; [apply callee_nodup | done] | exact Eo]. Qed.
  (** what names of the callee become *)
  Lemma image x y : s !! x = Some y -> (exists i, rargs callee !! i = Some x /\ tgts !! i = Some y) \/ (exists i, all_outs (rnodes callee) !! i = Some x /\ y = next + length bs + i).
  Proof using Hs Hcal.
    intros H. pose proof callee_nodup as Hcn. pose proof tgts_length as Htn. pose proof Hcn as Hcn'. apply NoDup_app in Hcn' as (_ & _ & Hco). destruct Hs as [_ _ _ _ _ Hc _ _]. destruct (copy_nodes_ok _ _ _ _ _ _ Hc Hco) as (_ & E2 & E3 & _); [intros z Hz; by eapply keys_none|].
    destruct (decide (x ∈ all_outs (rnodes callee))) as [Hx|Hx].
    - right. apply elem_of_list_lookup in Hx as [i Hi]. exists i. split; [done|]. rewrite (E2 _ _ Hi) in H. by injection H as <-.
    - left. rewrite E3 in H by done. by eapply keys_value.
  Qed.
  Lemma operand_out y : y ∈ ops ++ deps -> y ∉ outs.
  Proof using Hs Hd Hdeps.
    intros Hy Hyo. destruct outs_nodup as (_ & Ha & _). apply elem_of_app in Hy as [Hy|Hy]; [|by apply (Ha y Hyo), Hdeps]. pose proof call_in as Hin. destruct Hd as [r0 _ [rank [Hk _]] _ _]. specialize (Hk _ y y Hin ltac:(by right) Hyo). lia.
  Qed.
  Lemma outs_low y : y ∈ outs -> y < next.
  Proof using Hs Hd. intros Hy. apply region_bound_ok. eapply rnodes_names; [done | exact call_in|]. apply elem_of_app. by right. Qed.
  Lemma image_out x y : s !! x = Some y -> y ∉ outs.
  Proof using Hs Hd Hcal Hdeps.
    intros H Hyo. apply outs_low in Hyo as Hlt. destruct (image x y H) as [(i & _ & Hi)|(i & _ & ->)]; [|lia]. pose proof operand_out as Ho. destruct Hs as [_ _ _ _ Hb _ _ _]. destruct (barriers_shape _ _ _ _ _ _ _ _ Hb) as (_ & _ & Ht & _). destruct (Ht y ltac:(by eapply elem_of_list_lookup_2)) as [Hy|Hy]; [by apply (Ho y) | unfold next in Hlt; lia].
  Qed.
  Lemma news_out y : y ∈ news -> y ∉ outs.
  Proof using Hs Hd Hcal Hdeps. intros Hy. pose proof news_maps as Hm. apply elem_of_list_lookup in Hy as [i Hi]. destruct (Forall2_lookup_r _ _ _ _ _ Hm Hi) as (x & _ & Hx). by eapply image_out. Qed.

  Section Semantics.
  Hypothesis Hbar : barrier other bar.
  Context (cx : list val).
  Hypothesis Hcalls : calls other content id callee cx.
  Lemma splice_fwd rho : hold rho (rnodes r) -> map rho deps = cx -> exists rho', (forall x, x ∈ names r -> rho' x = rho x) /\ hold rho' (rnodes r') /\ map rho' (rres r') = map rho (rres r).
  Proof using Hs Hd Hcal Hdeps Hbar Hcalls.
    intros Hh Hcx. pose proof tgts_low as Htl. pose proof tgts_length as Htn. pose proof news_maps as Hnm. pose proof news_length as Hnl. destruct outs_nodup as (No & Noa & _). pose proof callee_nodup as Hcn. pose proof ops_names as Hon. pose proof io_names as Hio. destruct Hs as [Hj L1 L2 Eio Hb Hc Hn ->].
    apply (hold_at other content rho _ _ _ Hj) in Hh as [Hcall Hh]. unfold Spec.holds in Hcall. cbn [nkind nins nouts map] in Hcall. inversion Hcall as [o vs ws Ho| |]; subst o vs ws. cbn [op_sem] in Ho. apply Hcalls in Ho. apply runs_iff in Ho as (rc & Ec & Hhc & Erc).
    destruct (barriers_fwd bar ptr other content Hbar _ _ rho _ _ _ _ Hb) as (rho1 & A1 & A2 & A3); [by apply region_bound_ok | intros x Hx; by apply region_bound_ok, Hon|].
    assert (Hold : forall x, x ∈ names r -> rho1 x = rho x) by (intros x Hx; apply A1; intros Hx'; apply region_bound_ok in Hx; apply seq_new in Hx'; lia).
    destruct (copy_fwd other content _ _ _ _ _ _ _ Hc Hcn Htn rc rho1) as (rho' & B1 & B2 & B3); [exact Htl | | exact Hhc|].
    { rewrite A3, map_app, Hcx. exact Ec. }
    assert (Hold' : forall x, x ∈ names r -> rho' x = rho x) by (intros x Hx; rewrite B1; [by apply Hold|]; left; apply region_bound_ok in Hx; lia).
    assert (Enews : map rho' news = map rho outs) by (rewrite <- Erc; symmetry; by eapply maps_agree).
    assert (Eouts : map rho outs = map rho' outs). { symmetry. apply map_ext_in. intros x Hx%elem_of_list_In. apply Hold'. eapply rnodes_names; [done | by eapply elem_of_list_lookup_2|]. apply elem_of_app. by right. }
    assert (Ed : forall l, map rho' (map (divert outs news) l) = map rho' l) by (intros l; apply divert_map; [done | done | done | by rewrite Enews]).
    exists rho'. split; [done|]. cbn [rnodes rres]. split.
    - assert (H : hold rho' (delete j (rnodes r) ++ bs ++ copies)).
      { rewrite !hold_app. split; [|split; [|done]].
        - eapply hold_ext; [|exact Hh]. intros n y Hn' Hy. symmetry. apply Hold'. eapply rnodes_names; [done| |exact Hy]. apply elem_delete in Hn' as (t & _ & Ht). by eapply elem_of_list_lookup_2.
        - eapply hold_ext; [|exact A2]. intros n y Hn' Hy. symmetry. apply B1. left. destruct (barriers_shape _ _ _ _ _ _ _ _ Hb) as (_ & So & _ & Sn). apply elem_of_app in Hy as [Hy|Hy].
          + destruct (Sn n Hn') as (x & y' & -> & Hx). cbn [nins] in Hy. apply elem_of_cons in Hy as [->|Hy]; [apply Hon, region_bound_ok in Hx; lia|]. apply elem_of_list_singleton in Hy as ->. apply region_bound_ok in Hio. lia.
          + assert (Hin : y ∈ all_outs bs) by (apply elem_all_outs; by exists n). rewrite So in Hin. apply elem_of_list_In, in_seq in Hin. lia. }
      intros n' Hn'. apply elem_of_list_In, in_map_iff in Hn' as (n & <- & Hn'%elem_of_list_In). specialize (H n Hn'). unfold Spec.holds in H |- *. cbn [divert_node nkind nins nouts]. by rewrite Ed.
    - rewrite Ed. apply map_ext_in. intros x Hx%elem_of_list_In. apply Hold'. destruct (deep_wf r Hd) as (_ & _ & Hr). by apply Hr.
  Qed.
  Lemma splice_bwd rho : hold rho (rnodes r') -> map rho deps = cx -> exists rho', (forall x, x ∈ rargs r -> rho' x = rho x) /\ hold rho' (rnodes r) /\ map rho' (rres r) = map rho (rres r').
  Proof using Hs Hd Hcal Hdeps Hbar Hcalls.
    intros Hh Hcx. pose proof tgts_low as Htl. pose proof tgts_length as Htn. pose proof news_maps as Hnm. pose proof news_length as Hnl. destruct outs_nodup as (No & Noa & Nod). pose proof callee_nodup as Hcn. pose proof ops_names as Hon. pose proof io_names as Hio. pose proof call_in as Hin. pose proof bs_nodes as Hbs. pose proof news_out as Hno.
    destruct Hs as [Hj L1 L2 Eio Hb Hc Hn ->]. cbn [rnodes rres] in Hh |- *. set (rho' := sets rho outs (map rho news)). exists rho'.
    assert (Hlo : forall x, x ∈ outs -> x < next) by (intros x Hx; apply region_bound_ok; eapply rnodes_names; [done | exact Hin|]; apply elem_of_app; by right).
    assert (Eargs : forall x, x ∈ rargs r -> rho' x = rho x) by (intros x Hx; apply sets_out; intros Hx'; by apply (Noa x Hx')).
    assert (Ed : forall l, map rho (map (divert outs news) l) = map rho' l).
    { intros l. apply divert_map; [done | done | |]; [intros x _ Hx; symmetry; by apply sets_out | unfold rho'; rewrite sets_map; [done | done | by rewrite map_length]]. }
    split; [done|]. split; [|by rewrite Ed].
    assert (Hall : hold rho' (delete j (rnodes r) ++ bs ++ copies)).
    { intros n Hn'. assert (Hn2 : divert_node (divert outs news) n ∈ map (divert_node (divert outs news)) (delete j (rnodes r) ++ bs ++ copies)) by (apply elem_of_list_In, in_map, elem_of_list_In; done). specialize (Hh _ Hn2). unfold Spec.holds in Hh |- *. cbn [divert_node nkind nins nouts] in Hh. rewrite Ed in Hh.
      replace (map rho' (nouts n)) with (map rho (nouts n)); [done|]. apply map_ext_in. intros x Hx%elem_of_list_In. symmetry. apply sets_out. intros Hx'. apply elem_of_app in Hn' as [Hn'|Hn']; [apply (Nod x Hx'); apply elem_all_outs; by exists n|]. apply Hlo in Hx' as Hlt. apply elem_of_app in Hn' as [Hn'|Hn'].
      - destruct (Hbs n Hn') as (a & b & -> & _ & Hab). cbn [nouts] in Hx. apply elem_of_list_singleton in Hx as ->. lia.
      - pose proof Hcn as Hcn'. apply NoDup_app in Hcn' as (_ & _ & Hco). destruct (copy_nodes_ok _ _ _ _ _ _ Hc Hco) as (_ & _ & _ & _ & Eo); [intros y Hy; by eapply keys_none|]. assert (Hxo : x ∈ all_outs copies) by (apply elem_all_outs; by exists n). rewrite Eo in Hxo. apply seq_new in Hxo. fold next in Hxo. lia. }
    rewrite !hold_app in Hall. destruct Hall as (H1 & H2 & H3). apply (hold_at other content rho' _ _ _ Hj). split; [|done].
    assert (Hin_ops : forall x, x ∈ ops ++ deps -> rho' x = rho' x) by done.
    unfold Spec.holds. cbn [nkind nins nouts map]. constructor. cbn [op_sem]. apply Hcalls. destruct (copy_bwd other content _ _ _ _ _ _ _ Hc Hcn Htn rho' (fun _ => VAny 0) H3) as [C1 C2]. apply runs_iff. eexists. split; [|split; [exact C1|]].
    - rewrite C2, (barriers_bwd bar ptr other content Hbar _ _ _ _ _ _ _ Hb H2), map_app. f_equal. rewrite <- Hcx. apply map_ext_in. intros x Hx%elem_of_list_In. by apply Eargs, Hdeps.
    - erewrite maps_agree; [|intros x y; apply pull_agree | exact Hnm]. transitivity (map rho news); [|unfold rho'; rewrite sets_map; [done | done | by rewrite map_length]].
      (* no result of the copy is an output of the call *)
      apply map_ext_in. intros y Hy%elem_of_list_In. apply sets_out. intros Hyo. exact (Hno y Hy Hyo).
  Qed.
  End Semantics.
End Splice.
