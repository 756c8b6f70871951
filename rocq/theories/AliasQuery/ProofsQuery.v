(** The answers of a query are right. *)
From stdpp Require Import base list fin_maps fin_sets gmap.
From Coq Require Import ZArith Lia.
From Verif.AliasQuery Require Import Model Spec ProofsTrace ProofsEscape.
Local Open Scope Z_scope.

Lemma u64_small z : 0 <= z < 2 ^ 64 -> u64 z = z.
Proof. intros H. unfold u64. by apply Z.mod_small. Qed.
Lemma query_offsets_sound y1 d1 s1 y2 d2 s2 x1 x2 : y1 = y2 -> x1 = y1 + d1 -> x2 = y2 + d2 ->
  (query_offsets (Some d1) s1 (Some d2) s2 = NoAlias -> ~ exists z, x1 <= z < x1 + s1 /\ x2 <= z < x2 + s2) /\
  (query_offsets (Some d1) s1 (Some d2) s2 = MustAlias -> x1 = x2).
Proof.
  intros -> -> ->. unfold query_offsets. destruct (decide (d2 - d1 = 0)) as [E|E]; [split; [done|]; intros _; lia|].
  destruct (decide (0 <= d2 - d1 /\ s1 <= d2 - d1)) as [[H1 H2]|H]; [split; [|done]; intros _ [z Hz]; lia|].
  destruct (decide (d2 - d1 <= 0 /\ s2 <= - (d2 - d1))) as [[H1 H2]|H']; [split; [|done]; intros _ [z Hz]; lia|]. by split.
Qed.

Section Query.
  Context (G : graph) (Hwf : wf G) (W : world) (HW : execution G W).

  (** the objects of original origins *)
  Lemma original_object i o b y : is_original G o = true -> happens W i o (b, y) -> y = 0 /\ (b = Global o \/ (exists n, b = Stack o n) \/ exists n, b = Heap o n).
  Proof using HW.
    intros Ho Hh. pose proof (ex_events G W HW i o _ Hh) as Hj. unfold is_original in Ho. unfold justified in Hj. destruct (kind_of G o); try done.
    - injection Hj as -> ->. auto.
    - injection Hj as -> ->. auto.
    - injection Hj as -> ->. auto.
    - destruct Hj as [n [= -> ->]]. split; [done|]. right; left. by exists n.
    - destruct Hj as [n [= -> ->]]. split; [done|]. right; right. by exists n.
  Qed.
  Lemma originals_differ i j o o' b y y' : is_original G o = true -> is_original G o' = true -> happens W i o (b, y) -> happens W j o' (b, y') -> o = o'.
  Proof using HW.
    intros H1 H2 E1 E2. destruct (original_object _ _ _ _ H1 E1) as [_ [Hb|[[n Hb]|[n Hb]]]]; destruct (original_object _ _ _ _ H2 E2) as [_ [Hb'|[[n' Hb']|[n' Hb']]]]; congruence.
  Qed.
  Lemma size_known i o b y n : original_size G o = Some n -> happens W i o (b, y) -> n = osize W b /\ is_original G o = true.
  Proof using HW.
    intros Hs Hh. pose proof (ex_size G W HW i o b y) as Hz. pose proof (ex_limit G W HW b) as Hl. unfold original_size in Hs. unfold constant_size in Hz. unfold is_original. change (2 ^ 63) with 9223372036854775808 in Hl. destruct (kind_of G o) as [k|k| |[c|] e|[k|]| | | | | | | | | | |]; try done.
    - destruct (decide (k = 0)); [done|]. injection Hs as <-. split; [|done]. symmetry. by apply Hz.
    - injection Hs as <-. split; [|done]. symmetry. by apply Hz.
    - injection Hs as <-. split; [|done]. rewrite (Hz (c * e) Hh eq_refl) in *. apply u64_small. change (2 ^ 64) with 18446744073709551616. lia.
    - injection Hs as <-. split; [|done]. rewrite (Hz k Hh eq_refl) in *. apply u64_small. change (2 ^ 64) with 18446744073709551616. lia.
  Qed.

  (** precise tracing *)
  Lemma current_norm_just i o p : current W i -> happens W i o p -> (forall x y, kind_of G o <> ThetaPre x y) -> justified G W (current W) i o p.
  Proof using HW.
    intros (o' & p' & Hh' & Hn) Hh Hk. unfold happens in *. rewrite Hh in Hh'. injection Hh' as <- <-. destruct (ex_now G W HW _ _ Hn) as (q & Hq & Hj). unfold happens in Hq. rewrite Hh in Hq. injection Hq as <-. by apply Hj.
  Qed.
  Lemma precise_fuel_sound f i x off b z b' off' : current W i -> happens W i x (b, z) -> trace_precise_fuel G f x off = Done (b', off') ->
    exists j z', current W j /\ happens W j b' (b, z') /\ z + off = z' + off'.
  Proof using HW.
    revert i x off z. induction f as [|f IH]; intros i x off z Hc Hh; cbn [trace_precise_fuel]; [done|].
    destruct (ex_norm_now G W HW i x _ Hc Hh) as (j & Hji & Hcj & Hhj).
    assert (Hend : Done (norm G x, off) = Done (b', off') -> exists j z', current W j /\ happens W j b' (b, z') /\ z + off = z' + off') by (intros [= <- <-]; exists j, z; done).
    destruct (kind_of G (norm G x)) as [| | | | |bb [d|]| | | | | | | | | |] eqn:E; try exact Hend. intros Ht.
    pose proof (current_norm_just j _ _ Hcj Hhj ltac:(intros ? ?; congruence)) as Hj. unfold justified in Hj. rewrite E in Hj. cbn in Hj. destruct Hj as (y & Hf & Hd). destruct Hf as (k & Hkj & Hck & Hhk).
    specialize (Hd d eq_refl). destruct (IH k bb _ y Hck Hhk Ht) as (j' & z' & H1 & H2 & H3). exists j', z'. split; [done|]. split; [done|]. lia.
  Qed.

  Section Regime.
    Context (occ : nat -> Prop) (Hnorm : follows_norm G W occ)
            (Hjust : forall i o p, occ i -> happens W i (norm G o) p -> justified G W occ i (norm G o) p)
            (Hone : forall o i j p q, origin G o -> occ i -> occ j -> happens W i o p -> happens W j o q -> p = q).
    (** origin t, with an entry in the top origins, is where the pointer (b, w) came from *)
    Definition at_top (T : gmap nat (option Z)) (t : nat) (b : obj) (w : Z) : Prop :=
      exists off y i, T !! t = Some off /\ origin G t /\ occ i /\ happens W i t (b, y) /\ forall d, off = Some d -> w = y + d.
    Lemma complete tc b w : tops_agree G tc -> (forall b', closed G tc.1 b') -> forall i x off z, occ i -> happens W i x (b, z) -> covered G tc.1 x off -> (forall e, off = Some e -> w = z + e) ->
      exists t, at_top tc.2 t b w.
    Proof using Hwf Hnorm Hjust.
      intros Hagree Hcl i. induction (lt_wf i) as [i _ IH]. intros x off z Ho Hh (ym & Hm & Hle) Hval.
      destruct (Hnorm i x _ Ho Hh) as (j & Hji & Hoj & Hhj). pose proof (Hjust j _ _ Hoj Hhj) as Hj. pose proof (wf_norm G Hwf x) as Hst.
      assert (Hvm : forall e, ym = Some e -> w = z + e) by (intros e ->; destruct Hle as [Hle|Hle]; [done|]; by apply Hval).
      assert (Htop : origin G (norm G x) -> exists t, at_top tc.2 t b w).
      { intros Hor. exists (norm G x), ym, z, j. rewrite (Hagree _ Hor). done. }
      assert (Hstep : forall y off' z', (y, off') ∈ succs G (norm G x) ym -> from W occ j y (b, z') -> (forall e, off' = Some e -> w = z' + e) -> exists t, at_top tc.2 t b w).
      { intros y off' z' Hs (k & Hkj & Hok & Hhk) Hv. eapply (IH k ltac:(lia) y off' z' Hok Hhk); [|done]. by eapply Hcl. }
      unfold origin in Htop. unfold stops in Hst. unfold justified in Hj. unfold succs in Hstep. destruct (kind_of G (norm G x)) eqn:E; try done; try (by apply Htop).
      - destruct Hj as (y & Hf & Hd). eapply Hstep; [by left | exact Hf|]. intros e He. unfold add_off in He. destruct ym as [zm|]; [|done]. destruct off0 as [d|]; [|done]. injection He as <-.
        specialize (Hvm zm eq_refl). specialize (Hd d eq_refl). cbn in Hd. lia.
      - destruct Hj as [Hj|Hj]; eapply Hstep; [by left | exact Hj | done | right; by left | exact Hj | done].
      - destruct Hj as (r & Hr & Hj). eapply Hstep; [|exact Hj | done]. apply elem_of_list_fmap. exists r. done.
      - eapply Hstep; [by left | exact Hj | done].
      - destruct Hj as [Hj|Hj]; eapply Hstep; [right; by left | exact Hj | done | by left | exact Hj | done].
    Qed.

    Lemma top_offset i t b y : origin G t -> happens W i t (b, y) -> 0 <= y.
    Proof using HW. clear Hnorm Hjust Hone. intros _ Hh. apply (ex_bounds G W HW) in Hh. lia. Qed.
    Lemma at_small_remaining T t b w s : at_top T t b w -> 0 <= w -> 0 <= s -> w + s <= osize W b -> at_top (remove_small_remaining G T s) t b w.
    Proof using HW.
      intros (off & y & i & Ht & Hor & Hoi & Hh & Hoff) Hw Hs Hb. unfold at_top, remove_small_remaining. setoid_rewrite map_lookup_imap. rewrite Ht. cbn.
      assert (Hkeep : forall r, r = Some off \/ (off = None /\ r = Some (Some 0) /\ w = 0 /\ y = 0) ->
        exists off0 y0 i0, r = Some off0 /\ origin G t /\ occ i0 /\ happens W i0 t (b, y0) /\ forall d, off0 = Some d -> w = y0 + d).
      { intros r [->|(-> & -> & -> & ->)]; [by exists off, y, i|]. exists (Some 0), 0, i. split; [done|]. split; [done|]. split; [done|]. split; [done|]. intros d [= <-]. done. }
      apply Hkeep. unfold remaining_size. destruct (original_size G t) as [n|] eqn:En; [|by left].
      destruct (size_known _ _ _ _ _ En Hh) as [-> Ho]. destruct (original_object _ _ _ _ Ho Hh) as [-> _]. pose proof (ex_limit G W HW b) as Hl. change (2 ^ 63) with 9223372036854775808 in Hl.
      destruct off as [d|].
      - specialize (Hoff d eq_refl). left. destruct (decide (0 < d /\ osize W b < d)) as [[H1 H2]|H1]; [lia|]. rewrite u64_small by (change (2 ^ 64) with 18446744073709551616; lia).
        rewrite decide_False by lia. by rewrite decide_False by (by intros [_ ?]).
      - rewrite decide_False by lia. destruct (decide (osize W b = s /\ (None : option Z) = None)) as [[H1 _]|H1]; [|by left]. right. repeat split. lia.
    Qed.
    Lemma min_offset_le l m t off : (t, off) ∈ l -> min_offset l m <= match off with Some z => Z.max 0 z | None => 0 end.
    Proof using.
      clear Hnorm Hjust Hone HW. assert (Hm : forall l m, match m with Some y => min_offset l m <= Z.max 0 y | None => True end).
      { clear. induction l as [|[o [z|]] l IH]; intros m; cbn; [destruct m; lia| |destruct m; lia]. destruct m as [y|]; [|done]. destruct (decide (z < 0)); [lia|]. pose proof (IH (Some (Z.min y z))). cbn in H. lia. }
      revert m. induction l as [|[o [z|]] l IH]; intros m Hin; [by apply elem_of_nil in Hin| |].
      - cbn. destruct (decide (z < 0)); [destruct off; lia|]. apply elem_of_cons in Hin as [[= -> ->]|Hin]; [|by apply IH].
        pose proof (Hm l (Some (match m with Some y => Z.min y z | None => z end))) as H. cbn in H. destruct m; lia.
      - cbn. destruct off; lia.
    Qed.
    Lemma min_offset_pos l m : match m with Some y => 0 <= y | None => True end -> 0 <= min_offset l m.
    Proof using.
      clear Hnorm Hjust Hone HW. revert m. induction l as [|[o [z|]] l IH]; intros m Hm; cbn; [by destruct m| |lia]. destruct (decide (z < 0)); [lia|]. apply IH. destruct m; lia.
    Qed.
    Lemma min_offset_sound T t b w : at_top T t b w -> 0 <= w -> 0 <= minimum_offset T <= w.
    Proof using HW.
      intros (off & y & i & Ht & Hor & Hoi & Hh & Hoff) Hw. unfold minimum_offset. split; [by apply min_offset_pos|]. pose proof (top_offset _ _ _ _ Hor Hh) as Hy.
      apply elem_of_map_to_list in Ht. apply (min_offset_le _ None) in Ht. destruct off as [d|]; [specialize (Hoff d eq_refl)|]; lia.
    Qed.
    Lemma at_smaller T t b w s : at_top T t b w -> s <= osize W b -> at_top (remove_smaller G T s) t b w.
    Proof using HW.
      intros (off & y & i & Ht & Hor & Hoi & Hh & Hoff) Hs. exists off, y, i. split; [|done]. unfold remove_smaller. apply map_filter_lookup_Some. split; [done|]. cbn.
      destruct (original_size G t) as [n|] eqn:En; [|done]. destruct (size_known _ _ _ _ _ En Hh) as [-> _]. apply bool_decide_eq_false. lia.
    Qed.
    Lemma at_within T t b w s N : at_top T t b w -> 0 <= w -> 0 <= s -> w + s <= osize W b -> N < w + s -> at_top (remove_within G T s N) t b w.
    Proof using HW.
      intros (off & y & i & Ht & Hor & Hoi & Hh & Hoff) Hw Hs Hb HN. exists off, y, i. split; [|done]. unfold remove_within. apply map_filter_lookup_Some. split; [done|]. cbn.
      destruct (is_original G t) eqn:Ho; [|done]. destruct off as [d|]; [|done]. cbn. apply bool_decide_eq_false. specialize (Hoff d eq_refl). destruct (original_object _ _ _ _ Ho Hh) as [-> _].
      pose proof (ex_limit G W HW b) as Hl. change (2 ^ 63) with 9223372036854775808 in Hl. rewrite u64_small by (change (2 ^ 64) with 18446744073709551616; lia). lia.
    Qed.
    Lemma forallb_at (f : nat -> bool) T t b w : forallb (fun d => f d.1) (map_to_list T) = true -> at_top T t b w -> f t = true.
    Proof using.
      clear Hnorm Hjust Hone HW. intros Hf (off & y & i & Ht & _). apply elem_of_map_to_list in Ht. apply elem_of_list_In in Ht. rewrite forallb_forall in Hf. exact (Hf _ Ht).
    Qed.
    Lemma at_arguments T t b w o n : at_top T t b w -> b = Stack o n -> at_top (remove_arguments G T) t b w.
    Proof using HW.
      intros (off & y & i & Ht & Hor & Hoi & Hh & Hoff) ->. exists off, y, i. split; [|done]. unfold remove_arguments. apply map_filter_lookup_Some. split; [done|]. cbn.
      pose proof (ex_events G W HW _ _ _ Hh) as Hj. unfold justified in Hj. unfold is_param. by destruct (kind_of G t).
    Qed.
    Lemma alloca_stack t b w T : is_alloca G t = true -> at_top T t b w -> exists n, b = Stack t n.
    Proof using HW.
      intros Ha (off & y & i & Ht & Hor & Hoi & Hh & Hoff). pose proof (ex_events G W HW _ _ _ Hh) as Hj. unfold justified in Hj. unfold is_alloca in Ha. destruct (kind_of G t); try done. destruct Hj as [n [= -> _]]. by exists n.
    Qed.
    Lemma all_traceable_at l t off : all_traceable G l = Done true -> (t, off) ∈ l -> fully_traceable G t = Done true.
    Proof using.
      clear Hnorm Hjust Hone HW. induction l as [|[o z] l IH]; intros Ha Hin; [by apply elem_of_nil in Hin|]. cbn in Ha. destruct (fully_traceable G o) as [[|]| |] eqn:E; cbn in Ha; try done. apply elem_of_cons in Hin as [[= -> ->]|Hin]; [done | by apply IH].
    Qed.
    (** if the tops of the first pointer are allocas that do not escape, the top of another pointer into the same object is the same *)
    Lemma traceable_same T1 t1 T2 t2 b w1 w2 : only_traceable G T1 = Done true -> at_top T1 t1 b w1 -> at_top T2 t2 b w2 -> t1 = t2.
    Proof using Hwf HW.
      intros Ha H1 H2. assert (Hf : fully_traceable G t1 = Done true).
      { destruct H1 as (off & y & i & Ht & _). apply elem_of_map_to_list in Ht. by eapply all_traceable_at. }
      assert (Hal : is_alloca G t1 = true) by (unfold fully_traceable in Hf; by destruct (is_alloca G t1)). destruct (alloca_stack _ _ _ _ Hal H1) as [n ->].
      destruct H1 as (off & y & i & Ht & Hor & Hoi & Hh & Hoff), H2 as (off2 & y2 & i2 & Ht2 & Hor2 & Hoi2 & Hh2 & Hoff2).
      destruct (is_original G t2) eqn:Ho2.
      - eapply originals_differ; [|exact Ho2 | exact Hh | exact Hh2]. unfold is_alloca in Hal. unfold is_original. by destruct (kind_of G t1).
      - exfalso. destruct (kind_of G t2) eqn:Ek; unfold origin in Hor2; unfold is_original in Ho2; rewrite Ek in Hor2, Ho2; try done.
        + pose proof (ex_events G W HW _ _ _ Hh2) as Hj. unfold justified in Hj. by rewrite Ek in Hj.
        + by eapply (no_stack_elsewhere G Hwf W t1 n i2 t2 y2).
    Qed.

    Definition right_answer (b1 : obj) (w1 s1 : Z) (b2 : obj) (w2 s2 : Z) (r : response) : Prop :=
      (r = NoAlias -> ~ share_byte (b1, w1) s1 (b2, w2) s2) /\ (r = MustAlias -> (b1, w1) = (b2, w2)).
    Lemma offsets_answer T1 t b1 w1 s1 T2 b2 w2 s2 o1 o2 : at_top T1 t b1 w1 -> at_top T2 t b2 w2 -> T1 !! t = Some o1 -> T2 !! t = Some o2 -> right_answer b1 w1 s1 b2 w2 s2 (query_offsets o1 s1 o2 s2).
    Proof using Hone.
      intros (off & y & i & Ht & Hor & Hoi & Hh & Hoff) (off2 & y2 & i2 & Ht2 & Hor2 & Hoi2 & Hh2 & Hoff2) E1 E2. rewrite Ht in E1. rewrite Ht2 in E2. injection E1 as <-. injection E2 as <-.
      assert (E : (b1, y) = (b2, y2)) by exact (Hone _ _ _ _ _ Hor Hoi Hoi2 Hh Hh2). injection E as -> ->. unfold right_answer.
      destruct off as [d|]; [|by split]. destruct off2 as [d2|]; [|by split]. destruct (query_offsets_sound y2 d s1 y2 d2 s2 w1 w2 eq_refl (Hoff d eq_refl) (Hoff2 d2 eq_refl)) as [H1 H2].
      split; [intros E [_ Hz]; by apply H1 | intros E; by rewrite H2].
    Qed.
    Lemma collections_answer T1 off1 s1 T2 off2 s2 t1 t2 b1 w1 b2 w2 r : query_collections G T1 off1 s1 T2 off2 s2 = Done r ->
      at_top T1 t1 b1 w1 -> at_top T2 t2 b2 w2 -> 0 <= w1 -> 0 <= w2 -> 0 <= s1 -> 0 <= s2 -> w1 + s1 <= osize W b1 -> w2 + s2 <= osize W b2 -> off1 <= w1 -> off2 <= w2 ->
      right_answer b1 w1 s1 b2 w2 s2 r.
    Proof using Hwf HW Hone.
      intros Hq H1 H2 Hw1 Hw2 Hs1 Hs2 Hb1 Hb2 Ho1 Ho2.
      assert (Hno : (share_byte (b1, w1) s1 (b2, w2) s2 -> r = NoAlias -> False) /\ r <> MustAlias); [|destruct Hno as [Hno Hm]; split; [intros Hr Hs; by apply Hno | done]].
      unfold query_collections in Hq. set (min1 := if decide (0 < off1) then Z.max (minimum_offset T1) off1 else minimum_offset T1) in *. set (min2 := if decide (0 < off2) then Z.max (minimum_offset T2) off2 else minimum_offset T2) in *.
      assert (Hmin1 : 0 <= min1 <= w1) by (pose proof (min_offset_sound _ _ _ _ H1 Hw1); subst min1; destruct (decide (0 < off1)); lia).
      assert (Hmin2 : 0 <= min2 <= w2) by (pose proof (min_offset_sound _ _ _ _ H2 Hw2); subst min2; destruct (decide (0 < off2)); lia).
      clearbody min1 min2. set (T1' := remove_within G (remove_smaller G T1 (u64 (min2 + s2))) s1 min2) in *. set (T2' := remove_within G (remove_smaller G T2 (u64 (min1 + s1))) s2 min1) in *.
      assert (Hat : share_byte (b1, w1) s1 (b2, w2) s2 -> b1 = b2 /\ at_top T1' t1 b1 w1 /\ at_top T2' t2 b2 w2).
      { intros [Hb [z Hz]]. cbn in Hb, Hz. subst b2. pose proof (ex_limit G W HW b1) as Hl. change (2 ^ 63) with 9223372036854775808 in Hl. split; [done|].
        split; (apply at_within; [|lia|lia|lia|lia]); apply at_smaller; try done; rewrite u64_small by (change (2 ^ 64) with 18446744073709551616; lia); lia. }
      clearbody T1' T2'. clear H1 H2.
      destruct (overlap T1' s1 T2' s2) eqn:Eov; [injection Hq as <-; by split|].
      (* the origins are different *)
      assert (Hdiff : share_byte (b1, w1) s1 (b2, w2) s2 -> t1 <> t2).
      { intros Hsh. destruct (Hat Hsh) as (_ & A1 & A2). intros <-. pose proof A1 as (o1 & y1 & i1 & Ht1 & _). pose proof A2 as (o2 & y2 & i2 & Ht2 & _).
        destruct (offsets_answer T1' t1 b1 w1 s1 T2' b2 w2 s2 o1 o2 A1 A2 Ht1 Ht2) as [Ha _]. apply (Ha); [|done].
        unfold overlap in Eov. apply elem_of_map_to_list, elem_of_list_In in Ht1. apply not_true_iff_false in Eov. destruct (decide (query_offsets o1 s1 o2 s2 = NoAlias)) as [E|E]; [done|].
        exfalso. apply Eov. apply existsb_exists. exists (t1, o1). split; [done|]. cbn. rewrite Ht2. by apply bool_decide_eq_true_2. }
      destruct (only_original G T1' && only_original G T2') eqn:Eor.
      { injection Hq as <-. split; [|done]. intros Hsh _. apply andb_true_iff in Eor as [E1 E2]. destruct (Hat Hsh) as (<- & A1 & A2). apply (Hdiff Hsh).
        pose proof (forallb_at _ _ _ _ _ E1 A1) as O1. pose proof (forallb_at _ _ _ _ _ E2 A2) as O2. destruct A1 as (o1 & y1 & i1 & _ & _ & _ & Hh1 & _). destruct A2 as (o2 & y2 & i2 & _ & _ & _ & Hh2 & _).
        by eapply originals_differ. }
      set (TT := if only_alloca G T1' then (T1', remove_arguments G T2') else if only_alloca G T2' then (remove_arguments G T1', T2') else (T1', T2')) in *.
      assert (Hat' : share_byte (b1, w1) s1 (b2, w2) s2 -> b1 = b2 /\ at_top TT.1 t1 b1 w1 /\ at_top TT.2 t2 b2 w2).
      { intros Hsh. destruct (Hat Hsh) as (<- & A1 & A2). split; [done|]. subst TT. destruct (only_alloca G T1') eqn:Ea1.
        - split; [done|]. cbn. pose proof (forallb_at _ _ _ _ _ Ea1 A1) as O1. destruct (alloca_stack _ _ _ _ O1 A1) as [n ->]. by eapply at_arguments.
        - destruct (only_alloca G T2') eqn:Ea2; [|by split]. split; [|done]. cbn. pose proof (forallb_at _ _ _ _ _ Ea2 A2) as O2. destruct (alloca_stack _ _ _ _ O2 A2) as [n ->]. by eapply at_arguments. }
      clearbody TT. destruct TT as [U1 U2]. cbn [fst snd] in Hat'. clear Hat.
      destruct (decide (U1 = ∅ \/ U2 = ∅)) as [Hemp|Hemp].
      { injection Hq as <-. split; [|done]. intros Hsh _. destruct (Hat' Hsh) as (_ & (o1 & y1 & i1 & Ht1 & _) & (o2 & y2 & i2 & Ht2 & _)). destruct Hemp as [->| ->]; [by rewrite lookup_empty in Ht1 | by rewrite lookup_empty in Ht2]. }
      destruct (only_traceable G U1) as [[|]| |] eqn:Et1; cbn [obind] in Hq; [|clear Et1|done|done].
      { injection Hq as <-. split; [|done]. intros Hsh _. destruct (Hat' Hsh) as (<- & A1 & A2). apply (Hdiff Hsh). by eapply traceable_same. }
      destruct (only_traceable G U2) as [[|]| |] eqn:Et2; cbn [obind] in Hq; [|injection Hq as <-; by split|done|done].
      injection Hq as <-. split; [|done]. intros Hsh _. destruct (Hat' Hsh) as (<- & A1 & A2). apply (Hdiff Hsh). symmetry. by eapply traceable_same.
    Qed.
  End Regime.

  Lemma local_answer max p1 s1 b1 w1 p2 s2 b2 w2 r occ : 
    follows_norm G W occ -> (forall i o p, occ i -> happens W i (norm G o) p -> justified G W occ i (norm G o) p) ->
    (forall o i j p q, origin G o -> occ i -> occ j -> happens W i o p -> happens W j o q -> p = q) -> (forall i, current W i -> occ i) ->
    local_query G max p1 s1 p2 s2 = Done r -> accesses W p1 s1 (b1, w1) -> accesses W p2 s2 (b2, w2) -> right_answer b1 w1 s1 b2 w2 s2 r.
  Proof using Hwf HW.
    intros Hnorm Hjust Hone Hcur Hq ((i1 & Hn1 & Hh1) & Hs1 & Hb1) ((i2 & Hn2 & Hh2) & Hs2 & Hb2). cbn [fst snd] in *.
    assert (Hc1 : current W i1) by (by exists p1, (b1, w1)). assert (Hc2 : current W i2) by (by exists p2, (b2, w2)).
    assert (Huniq : forall o i j p q, current W i -> current W j -> happens W i o p -> happens W j o q -> p = q).
    { intros o i j p q (o1 & q1 & E1 & N1) (o2 & q2 & E2 & N2) H1 H2. unfold happens in *. assert (o1 = o) by congruence. assert (o2 = o) by congruence. subst. assert (i = j) by congruence. subst. congruence. }
    assert (Hw1 : 0 <= w1) by (apply (ex_bounds G W HW) in Hh1; lia). assert (Hw2 : 0 <= w2) by (apply (ex_bounds G W HW) in Hh2; lia).
    unfold local_query in Hq. destruct (ex_norm_now G W HW _ _ _ Hc1 Hh1) as (j1 & _ & Hj1 & Hk1). destruct (ex_norm_now G W HW _ _ _ Hc2 Hh2) as (j2 & _ & Hj2 & Hk2).
    destruct (decide (norm G p1 = norm G p2)) as [E|E].
    { injection Hq as <-. split; [done|]. intros _. rewrite <-E in Hk2. exact (Huniq _ _ _ _ _ Hj1 Hj2 Hk1 Hk2). }
    destruct (trace_precise G (norm G p1)) as [[c1 off1]| |] eqn:T1; cbn [obind] in Hq; [|done|done]. destruct (trace_precise G (norm G p2)) as [[c2 off2]| |] eqn:T2; cbn [obind] in Hq; [|done|done].
    apply (precise_fuel_sound _ _ _ _ _ _ _ _ Hj1 Hk1) in T1. destruct T1 as (k1 & z1 & Hc1' & Hz1 & Ho1). apply (precise_fuel_sound _ _ _ _ _ _ _ _ Hj2 Hk2) in T2. destruct T2 as (k2 & z2 & Hc2' & Hz2 & Ho2).
    assert (Hz1p : 0 <= z1) by (apply (ex_bounds G W HW) in Hz1; lia). assert (Hz2p : 0 <= z2) by (apply (ex_bounds G W HW) in Hz2; lia).
    destruct (decide (c1 = c2)) as [<-|Hne].
    { injection Hq as <-. assert (E2 : (b1, z1) = (b2, z2)) by exact (Huniq _ _ _ _ _ Hc1' Hc2' Hz1 Hz2). injection E2 as <- <-.
      destruct (query_offsets_sound z1 off1 s1 z1 off2 s2 w1 w2 eq_refl ltac:(lia) ltac:(lia)) as [A B]. split; [intros E2 [_ Hz]; by apply A | intros E2; by rewrite B]. }
    destruct (decide (max <= 1)%nat) as [Hm|Hm].
    { injection Hq as <-. destruct (is_original G c1 && is_original G c2) eqn:Eo; [|by split]. split; [|done]. intros _ [Hb _]. cbn in Hb. subst b2. apply andb_true_iff in Eo as [E1 E2]. apply Hne. by eapply originals_differ. }
    pose proof (trace_all_good G Hwf max c1 off1) as A1. destruct (trace_all G max c1 off1) as [[[|] tc1]| |]; cbn [obind negb] in Hq; [|injection Hq as <-; by split|done|done].
    pose proof (trace_all_good G Hwf max c2 off2) as A2. destruct (trace_all G max c2 off2) as [[[|] tc2]| |]; cbn [obind negb] in Hq; [|injection Hq as <-; by split|done|done].
    destruct A1 as (Ag1 & Cl1 & Cv1), A2 as (Ag2 & Cl2 & Cv2).
    destruct (complete occ Hnorm Hjust tc1 b1 w1 Ag1 Cl1 k1 c1 (Some off1) z1 (Hcur _ Hc1') Hz1 Cv1 ltac:(intros e [= <-]; lia)) as [t1 At1].
    destruct (complete occ Hnorm Hjust tc2 b2 w2 Ag2 Cl2 k2 c2 (Some off2) z2 (Hcur _ Hc2') Hz2 Cv2 ltac:(intros e [= <-]; lia)) as [t2 At2].
    apply (at_small_remaining _ _ _ _ _ s1) in At1; [|done|done|done]. apply (at_small_remaining _ _ _ _ _ s2) in At2; [|done|done|done].
    destruct (single_origin (remove_small_remaining G tc1.2 s1) (remove_small_remaining G tc2.2 s2)) as [[o1 o2]|] eqn:Es.
    - injection Hq as <-. unfold single_origin in Es.
      assert (Hsing : forall (T : gmap nat (option Z)) t b w a o, map_to_list T = [(a, o)] -> at_top occ T t b w -> t = a /\ T !! t = Some o).
      { intros T t b w a o El (off & y & i & Ht & _). pose proof Ht as Ht'. apply elem_of_map_to_list in Ht. rewrite El in Ht. apply elem_of_list_singleton in Ht as [= -> ->]. by split. }
      destruct (map_to_list (remove_small_remaining G tc1.2 s1)) as [|[a1 x1] [|? ?]] eqn:El1; try done. destruct (map_to_list (remove_small_remaining G tc2.2 s2)) as [|[a2 x2] [|? ?]] eqn:El2; try done.
      destruct (decide (a1 = a2)) as [<-|]; [|done]. injection Es as <- <-. destruct (Hsing _ _ _ _ _ _ El1 At1) as [-> L1]. destruct (Hsing _ _ _ _ _ _ El2 At2) as [-> L2].
      by eapply (offsets_answer occ Hone).
    - apply (collections_answer occ Hone _ _ _ _ _ _ _ _ _ _ _ _ _ Hq At1 At2); try done; lia.
  Qed.
End Query.
