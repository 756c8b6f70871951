(** What the pass leaves. *)
From stdpp Require Import base list gmap.
From Coq Require Import ZArith Lia.
From Verif.LocalRegion Require Import Model Spec Facts.
From Verif.Unswitch Require Import Model Spec Proofs1 Proofs3 Proofs5 Proofs6 Proofs7.
From Verif.IfConv Require Import Model Spec Proofs1 Proofs2 Proofs3 Proofs4.
Open Scope nat_scope.

Lemma convert_outs_covers l q es r0 r1 ts : forall next news olds ys x y0 y1, convert_outs l q es r0 r1 ts next = Some (news, olds, ys) -> (x, (y0, y1)) ∈ ts -> is_Some (arg_index r0 y0) -> is_Some (arg_index r1 y1) -> x ∈ olds \/ several_cases l q.
Proof.
  induction ts as [|[z [z0 z1]] ts IH]; intros next news olds ys x y0 y1 Hc Ht H0 H1; [by apply elem_of_nil in Ht|]. cbn [convert_outs] in Hc. apply elem_of_cons in Ht as [Ht|Ht].
  - injection Ht as <- <- <-. destruct (convert_out l q es r0 r1 y0 y1 next) as [|n y|] eqn:Ec; [| |done].
    + right. unfold convert_out in Ec. destruct H0 as [i0 E0], H1 as [i1 E1]. rewrite E0, E1 in Ec. destruct i0 as [|i0]; [done|]. destruct i1 as [|i1]; [done|]. destruct (es !! i0) as [o0|]; [|done]. destruct (es !! i1) as [o1|]; [|done]. destruct (decide (o0 = o1)); [done|].
      destruct (owner l q) as [[[o| |] mi mouts]|] eqn:Eo; try done. destruct o as [| |w mapping d| | | |]; try done. destruct mi as [|mo rest]; [done|]. apply owner_ok in Eo as [Hin Hq]. exists w, mapping, d, mo, rest, mouts. split; [done|]. split; [done|]. destruct mapping as [|[cv cs] [|]]; [done| |done].
      destruct (decide (cs = d)); [done|]. destruct (decide (w = 1%Z /\ cv = Z.of_nat cs)); [done|]. by destruct (constant w cv).
    + destruct (convert_outs _ _ _ _ _ _ _) as [[[n' o'] y']|]; [|done]. cbn in Hc. injection Hc as _ <- _. left. by left.
  - destruct (convert_out l q es r0 r1 z0 z1 next) as [|n y|] eqn:Ec; [by eapply IH| |done]. destruct (convert_outs l q es r0 r1 ts (next + length n)) as [[[n' o'] y']|] eqn:Er; [|done]. cbn in Hc. injection Hc as _ <- _. destruct (IH _ _ _ _ _ _ _ Er Ht H0 H1); [left; by right | by right].
Qed.
Definition gamma_done (r : region) (n : node) : Prop := forall r0 r1 q es outs x y0 y1, n = Node (KGamma [r0; r1]) (q :: es) outs -> (x, (y0, y1)) ∈ zip outs (zip (rres r0) (rres r1)) -> is_Some (arg_index r0 y0) -> is_Some (arg_index r1 y1) -> unused r x \/ several_cases (rnodes r) q.
Definition all_done (k : nat) (r : region) : Prop := forall i n, i < k -> rnodes r !! i = Some n -> gamma_done r n.
Definition shape (len : nat) (r : region) : Prop := len <= length (rnodes r) /\ forall i subs ins outs, rnodes r !! i = Some (Node (KGamma subs) ins outs) -> i < len.
Section Done.
  Context (other : nat -> list val -> option (list val)) (content : val -> val).
  Lemma step_done len r i r' : good_region r -> convert_at r i = Some r' -> all_done i r -> i < len -> shape len r -> all_done (S i) r' /\ shape len r'.
  Proof.
    intros Hgood Hc Hd Hi [S1 S2]. destruct (convert_at_cases r i) as [(r0 & r1 & q & es & outs & E)|[H Hng]].
    - destruct r as [A l res]. unfold convert_at in Hc. rewrite E in Hc. cbn [rnodes rargs rres] in *. destruct (convert_outs _ _ _ _ _ _ _) as [[[news olds] ys]|] eqn:Ec; [|done]. cbn [mbind option_bind] in Hc. injection Hc as <-. pose proof (elem_of_list_lookup_2 _ _ _ E) as Hin.
      pose proof (conv other content A l res r0 r1 q es outs news olds ys Hgood Hin Ec) as ((M1 & M2 & M3) & Hl & Hol & Hys & _). set (f := divert olds ys). set (next := region_bound (Region A l res)) in *.
      pose proof Hgood as ((Wn & Wu & Wr) & _). cbn [rnodes rres] in Wu, Wr.
      assert (Hbase : forall x, base l q es x -> x ∈ names (Region A l res)) by (intros x; eapply base_names; done).
      assert (Hlt : forall x, x ∈ names (Region A l res) -> x < next) by (intros x; apply region_bound_ok).
      assert (Hgo : forall n x, n ∈ l -> x ∈ nouts n -> x ∈ names (Region A l res)) by (intros n x Hn Hx; apply elem_of_app; right; apply elem_all_outs; by exists n).
      (* x is unused afterwards if f never gives it and the base does not have it *)
      assert (Hun : forall x, x < next -> ~ base l q es x -> (forall z, (exists n, n ∈ l /\ z ∈ nins n) \/ z ∈ res -> f z <> x) -> unused (Region A (map (divert_node f) l ++ news) (map f res)) x).
      { intros x Hx Hb Hf. split; cbn [rnodes rres].
        - intros n Hn Hxn. apply elem_of_app in Hn as [Hn|Hn].
          + apply elem_of_list_fmap in Hn as (m & -> & Hm). cbn [nins divert_node] in Hxn. apply elem_of_list_fmap in Hxn as (z & E1 & Hz). apply (Hf z); [left; by exists m | done].
          + destruct (M3 n x Hn Hxn) as [?|[? _]]; [done | lia].
        - intros Hxr. apply elem_of_list_fmap in Hxr as (z & E1 & Hz). apply (Hf z); [by right | done]. }
      (* matches stay *)
      assert (Hsev : forall q', several_cases l q' -> (forall z, z ∈ olds -> z <> q') -> f q' = q' /\ several_cases (map (divert_node f) l ++ news) q').
      { intros q' (w & m & d & x & ins & mouts & H1 & H2 & H3) Hz. assert (Hq' : q' ∉ olds) by (intros Hc; by apply (Hz q')). split; [by apply divert_out|]. exists w, m, d, (f x), (map f ins), mouts. split; [|done]. apply elem_of_app. left. apply elem_of_list_fmap. by exists (Node (KSimple (OMatch w m d)) (x :: ins) mouts). }
      assert (Hmo : forall q', several_cases l q' -> forall z, z ∈ olds -> z <> q').
      { intros q' (w & m & d & x & ins & mouts & H1 & H2 & H3) z Hz ->. apply Hol in Hz. assert (Wo : NoDup (all_outs l)) by (unfold names in Wn; cbn [rargs rnodes] in Wn; by apply NoDup_app in Wn as (_ & _ & Wn)). apply elem_of_list_lookup in H1 as [i' H1]. pose proof (unique_owner l i i' _ _ q' Wo E H1 Hz H2). subst i'. rewrite E in H1. done. }
      split.
      + intros k n Hk Hn. cbn [rnodes] in Hn. assert (Hkl : k < length l) by lia. rewrite lookup_app_l in Hn by (by rewrite map_length). change (map (divert_node f) l) with (divert_node f <$> l) in Hn. rewrite list_lookup_fmap in Hn. destruct (l !! k) as [n0|] eqn:En; [|done]. cbn in Hn. injection Hn as <-.
        intros s0 s1 q' es' outs' x y0 y1 En0 Hx H0 H1. destruct n0 as [kd ins o]. unfold divert_node in En0. cbn [nkind nins nouts] in En0. destruct ins as [|q0 es0]; [done|]. cbn [map] in En0. injection En0 as -> <- <- ->. pose proof (elem_of_list_lookup_2 _ _ _ En) as Hn0.
        assert (Hxo : x ∈ outs') by (by eapply ts_outs). assert (Hxn : x < next) by (apply Hlt; by eapply Hgo). assert (Hys' : forall y, y ∈ ys -> y ∈ es \/ next <= y) by (intros y Hy; destruct (Hys y Hy); [by left | right; lia]).
        destruct (decide (k = i)) as [->|Hki].
        * rewrite E in En. injection En as <- <- <- <- <-. destruct (convert_outs_covers _ _ _ _ _ _ _ _ _ _ x y0 y1 Ec Hx H0 H1) as [Hxol|Hs].
          -- left. assert (Hbo : forall z, base l q es z -> z <> x) by (intros z Hb ->; by apply (base_out A l res r0 r1 q es outs Hgood Hin x Hb)). apply Hun; [done | intros Hb; by apply (Hbo x Hb)|]. intros z _ Hfz. destruct (divert_cases olds ys z Hl) as [[Hz1 Hz2]|(j & Hj & Hy)].
             ++ fold f in Hz2. rewrite Hz2 in Hfz. by subst.
             ++ fold f in Hy. rewrite Hfz in Hy. destruct (Hys' x) as [He|Hn]; [by eapply elem_of_list_lookup_2 | apply (Hbo x); [right; by left | done] | lia].
          -- right. destruct (Hsev q Hs (Hmo q Hs)) as [Ef Hs']. cbn [rnodes]. by rewrite Ef.
        * assert (Hk' : k < i) by lia. destruct (Hd k _ Hk' En s0 s1 q0 es0 outs' x y0 y1 eq_refl Hx H0 H1) as [[U1 U2]|Hs].
          -- left. cbn [rnodes rres] in U1, U2. assert (Hbx : ~ base l q es x).
             { intros [->|[Hb|(m & Hm & Hb)]]; [apply (U1 _ Hin); by left | apply (U1 _ Hin); by right|]. apply owner_ok in Hm as [Hm _]. by apply (U1 m Hm). }
             apply Hun; [done | done|]. intros z Hz Hfz. destruct (divert_cases olds ys z Hl) as [[Hz1 Hz2]|(j & Hj & Hy)].
             ++ fold f in Hz2. rewrite Hz2 in Hfz. subst z. destruct Hz as [(n & Hn & Hz)|Hz]; [by apply (U1 n Hn) | done].
             ++ fold f in Hy. rewrite Hfz in Hy. destruct (Hys' x) as [He|Hn]; [by eapply elem_of_list_lookup_2 | apply Hbx; right; by left | lia].
          -- right. cbn [rnodes] in Hs. destruct (Hsev q0 Hs (Hmo q0 Hs)) as [Ef Hs']. cbn [rnodes]. by rewrite Ef.
      + split; cbn [rnodes]; [rewrite app_length, map_length; lia|]. intros k subs ins o Hk. apply lookup_app_Some in Hk as [Hk|[_ Hk]].
        * change (map (divert_node f) l) with (divert_node f <$> l) in Hk. rewrite list_lookup_fmap in Hk. destruct (l !! k) as [[kd ins0 o0]|] eqn:En; [|done]. cbn in Hk. injection Hk as -> _ _. by eapply S2.
        * apply elem_of_list_lookup_2 in Hk. by destruct (M2 _ Hk) as (o' & Ho & _).
    - rewrite H in Hc. injection Hc as <-. split; [|by split]. intros k n Hk Hn. destruct (decide (k = i)) as [->|Hki]; [|apply (Hd k); [lia | done]]. intros r0 r1 q es outs x y0 y1 ->. by apply Hng in Hn.
  Qed.
  Lemma steps_done len n : forall k r r', good_region r -> steps (seq k n) (Some r) = Some r' -> all_done k r -> k + n <= len -> shape len r -> all_done (k + n) r' /\ shape len r'.
  Proof.
    induction n as [|n IH]; intros k r r' Hg Hs Hd Hl Hsh.
    - unfold steps in Hs. cbn in Hs. injection Hs as <-. by rewrite Nat.add_0_r.
    - unfold steps in Hs. cbn [seq foldl mbind option_bind] in Hs. destruct (convert_at r k) as [r1|] eqn:E1; [|fold (steps (seq (S k) n) None) in Hs; by rewrite steps_none in Hs]. fold (steps (seq (S k) n) (Some r1)) in Hs. destruct (convert_at_ok other content r k r1 Hg E1) as (_ & Hg1 & _). destruct (step_done len r k r1 Hg E1 Hd ltac:(lia) Hsh) as [D1 S1].
      replace (k + S n) with (S k + n) by lia. apply (IH (S k) r1); [done | done | done | lia | done].
  Qed.
  Lemma if_convert_done r r' : good r -> if_convert r = Some r' -> forall n, n ∈ rnodes r' -> gamma_done r' n.
  Proof.
    intros Hg H n Hn r0 r1 q es outs x y0 y1 ->. destruct Hg as [[A l res] Hgr Hb]. rewrite if_convert_eq in H. destruct (mapM convert_body l) as [l'|] eqn:El; [|done]. cbn [mbind option_bind] in H. apply mapM_Some in El. cbn [rnodes] in *.
    assert (HF : Forall2 (body_same other content) l l').
    { clear H Hgr. induction El as [|m m' l l' Hm El IHl]; [constructor|]. constructor; [|apply IHl; intros b ins outs' Hin; apply (Hb b ins outs'); by right]. destruct m as [k ins os]. destruct k as [o|subs|b]; cbn in Hm; [injection Hm as <-; split; [done|]; split; [done|]; by left | injection Hm as <-; split; [done|]; split; [done|]; by left |].
      destruct (if_convert b) as [b'|] eqn:Eb; [|done]. cbn in Hm. injection Hm as <-. split; [done|]. split; [done|]. right. exists b, b'. split; [done|]. split; [done|]. apply (if_convert_ok other content b); [apply (Hb b ins os); by left | done]. }
    destruct (steps_done (length l') (length l') 0 _ r' (bodies_good other content A l l' res HF Hgr) H) as [D [_ Hsh]]; [intros i m Hi; lia | done | split; [done | intros i subs ins os Hi; by eapply lookup_lt_Some]|].
    apply elem_of_list_lookup in Hn as [i Hi]. by apply (D i _ (Hsh _ _ _ _ Hi) Hi r0 r1 q es outs x y0 y1).
  Qed.
End Done.
