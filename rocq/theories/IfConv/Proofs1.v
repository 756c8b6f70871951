(** The nodes made for one gamma node. *)
From stdpp Require Import base list gmap.
From Coq Require Import ZArith Lia.
From Verif.LocalRegion Require Import Model Spec Facts.
From Verif.Unswitch Require Import Model Spec Proofs1 Proofs3.
From Verif.IfConv Require Import Model Spec.
Open Scope nat_scope.

Lemma constant_ok w v : (0 < w)%Z -> (0 <= v < 2 ^ w)%Z -> (v < 2 ^ 64)%Z -> (64 < w -> v < 2 ^ 63)%Z -> constant w v = Some v.
Proof.
  intros Hw Hv H64 Hn. unfold constant, int64. rewrite decide_False by lia. destruct (decide (v < 2 ^ 63)%Z) as [Hs|Hs].
  - rewrite decide_False; [by rewrite Z.mod_small|]. intros (_ & H & _). apply H. by apply Z.div_small.
  - destruct (decide (64 < w)%Z) as [Hb|Hb]; [exfalso; apply Hs; by apply Hn|]. assert (E : (2 ^ 64 = 2 ^ w * 2 ^ (64 - w))%Z) by (rewrite <-Z.pow_add_r by lia; f_equal; lia).
    rewrite decide_False.
    + rewrite E, (Z.mul_comm (2 ^ w)). replace (v - 2 ^ (64 - w) * 2 ^ w)%Z with (v + (- 2 ^ (64 - w)) * 2 ^ w)%Z by ring. rewrite Z_mod_plus_full, Z.mod_small by done. done.
    + intros (Hl & _ & _). assert (2 ^ w <= 2 ^ 63)%Z by (apply Z.pow_le_mono_r; lia). lia.
Qed.

Section Out.
  Context (other : nat -> list val -> option (list val)) (content : val -> val).
  Local Notation holds := (holds other content).
  Local Notation hold := (hold other content).
  Context (l : list node) (q : nat) (es : list nat) (r0 r1 : region).
  Definition good_owner : Prop := forall n, owner l q = Some n -> good_match n /\ forall w m d, nkind n = KSimple (OMatch w m d) -> forall p, p ∈ m -> p.2 < 2.
  (** what the predicate is *)
  Definition decides (rho : nat -> val) (k : nat) : Prop :=
    rho q = VCtl k /\ k < 2 /\ forall w m d mo rest outs, owner l q = Some (Node (KSimple (OMatch w m d)) (mo :: rest) outs) -> exists z, rho mo = VInt w z /\ (0 <= z < 2 ^ w)%Z /\ k = alternative m d z.
  Definition base (x : nat) : Prop := x = q \/ x ∈ es \/ exists m, owner l q = Some m /\ x ∈ nins m.
  Definition routed (y0 y1 : nat) (o0 o1 : nat) : Prop := exists i0 i1, arg_index r0 y0 = Some (S i0) /\ arg_index r1 y1 = Some (S i1) /\ es !! i0 = Some o0 /\ es !! i1 = Some o1.
  Definition choice (k : nat) (a b : val) : val := if decide (k = 0) then a else b.

  Lemma holds_simple rho o ins outs : holds rho (Node (KSimple o) ins outs) <-> op_sem other o (map rho ins) = Some (map rho outs).
  Proof. unfold Spec.holds. cbn [nkind nins nouts]. split; [intros H; by inversion H | by constructor]. Qed.
  Lemma select_holds rho c a b y : holds rho (Node (KSimple OSelect) [c; a; b] [y]) <-> exists z, rho c = VInt 1 z /\ rho y = if decide (z = 0)%Z then rho b else rho a.
  Proof.
    rewrite holds_simple. cbn [map op_sem]. split.
    - destruct (rho c) as [|w z|]; try done. destruct (decide (w = 1)%Z) as [->|]; [|done]. intros [= H]. by exists z.
    - intros (z & -> & ->). by rewrite decide_True.
  Qed.
  Lemma eq_holds rho w a b y z1 z2 : rho a = VInt w z1 -> rho b = VInt w z2 -> (holds rho (Node (KSimple (OEq w)) [a; b] [y]) <-> rho y = VInt 1 (if decide (z1 = z2) then 1 else 0)%Z).
  Proof. intros Ha Hb. rewrite holds_simple. cbn [map op_sem]. rewrite Ha, Hb, decide_True by done. split; [by intros [= H] | by intros ->]. Qed.
  Lemma int_holds rho w c y : holds rho (Node (KSimple (OInt w c)) [] [y]) <-> rho y = VInt w c.
  Proof. rewrite holds_simple. cbn. split; [by intros [= H] | by intros ->]. Qed.
  Lemma cti_holds rho a y k : rho a = VCtl k -> k < 2 -> (holds rho (Node (KSimple OCtlToInt) [a] [y]) <-> rho y = VInt 1 (Z.of_nat k)).
  Proof. intros Ha Hk. rewrite holds_simple. cbn [map op_sem]. rewrite Ha, decide_True by done. split; [by intros [= H] | by intros ->]. Qed.

  Definition made (next : nat) (news : list node) : Prop :=
    all_outs news = seq next (length news) /\ (forall n, n ∈ news -> (exists o, nkind n = KSimple o /\ good_match n /\ plain_node n /\ forall w m d, o <> OMatch w m d)) /\
    forall n x, n ∈ news -> x ∈ nins n -> base x \/ next <= x < next + length news /\ forall y, y ∈ nouts n -> x < y.
  Definition right (news : list node) (y o0 o1 : nat) : Prop := forall rho k, decides rho k -> hold rho news -> rho y = choice k (rho o0) (rho o1).
  Definition exists_for (next : nat) (news : list node) : Prop := forall rho k, decides rho k -> (forall x, base x -> x < next) ->
    exists rho', (forall x, x < next \/ next + length news <= x -> rho' x = rho x) /\ hold rho' news.

  Ltac ins H := cbn in H; repeat (apply elem_of_cons in H as [->|H]); try (by apply elem_of_nil in H).
  Lemma hold_nil rho : hold rho [].
  Proof. intros n Hn. by apply elem_of_nil in Hn. Qed.
  Lemma convert_out_ok y0 y1 next news y : good_owner -> convert_out l q es r0 r1 y0 y1 next = Diverted news y -> exists o0 o1, routed y0 y1 o0 o1 /\ made next news /\ (y = o0 \/ next <= y < next + length news) /\ right news y o0 o1 /\ exists_for next news.
  Proof.
    intros Hg. unfold convert_out. destruct (arg_index r0 y0) as [[|i0]|] eqn:E0; [by destruct (arg_index r1 y1) | | done]. destruct (arg_index r1 y1) as [[|i1]|] eqn:E1; [done| |done]. destruct (es !! i0) as [o0|] eqn:F0; [|done]. destruct (es !! i1) as [o1|] eqn:F1; [|done].
    assert (Ho0 : o0 ∈ es) by (by eapply elem_of_list_lookup_2). assert (Ho1 : o1 ∈ es) by (by eapply elem_of_list_lookup_2).
    assert (Hr : routed y0 y1 o0 o1) by (by exists i0, i1).
    destruct (decide (o0 = o1)) as [->|Hne].
    { intros [= <- <-]. exists o1, o1. split; [done|]. split; [split; [done|]; split; [intros n Hn; by apply elem_of_nil in Hn | intros n x Hn; by apply elem_of_nil in Hn]|]. split; [by left|]. split.
      - intros rho k _ _. unfold choice. by destruct (decide (k = 0)).
      - intros rho k _ _. exists rho. split; [done|]. apply hold_nil. }
    assert (Hcti : (forall w m d mo rest outs, owner l q <> Some (Node (KSimple (OMatch w m d)) (mo :: rest) outs)) -> Diverted [Node (KSimple OCtlToInt) [q] [next]; Node (KSimple OSelect) [next; o1; o0] [S next]] (S next) = Diverted news y ->
      exists o0 o1, routed y0 y1 o0 o1 /\ made next news /\ (y = o0 \/ next <= y < next + length news) /\ right news y o0 o1 /\ exists_for next news).
    { intros _ [= <- <-]. exists o0, o1. split; [done|]. split; [|split; [right; cbn; lia|]; split].
      - split; [done|]. split; [intros n Hn; ins Hn; by eexists|]. intros n x Hn Hx. ins Hn; ins Hx; try (left; unfold base; tauto). right. split; [cbn; lia|]. intros z Hz. ins Hz. lia.
      - intros rho k (Hq & Hk & _) Hh. rewrite !hold_cons in Hh. destruct Hh as (H1 & H2 & _). rewrite (cti_holds _ _ _ _ Hq Hk) in H1. apply select_holds in H2 as (z & H2 & ->). rewrite H1 in H2. injection H2 as <-. unfold choice. destruct (decide (k = 0)) as [->|]; [by rewrite decide_True|]. rewrite decide_False; [done|lia].
      - intros rho k (Hq & Hk & _) Hb. exists (fun x => if decide (x = next) then VInt 1 (Z.of_nat k) else if decide (x = S next) then choice k (rho o0) (rho o1) else rho x). cbn [length]. split; [intros x Hx; rewrite !decide_False by lia; done|].
        assert (q < next) by (apply Hb; by left). assert (o0 < next) by (apply Hb; right; by left). assert (o1 < next) by (apply Hb; right; by left).
        rewrite !hold_cons. split; [|split; [|apply hold_nil]].
        + eapply cti_holds; [rewrite !decide_False by lia; exact Hq | done | by rewrite decide_True].
        + apply select_holds. exists (Z.of_nat k). split; [by rewrite decide_True|]. rewrite (decide_False (P := S next = next)), decide_True by (try lia; done). rewrite !(decide_False (P := o0 = _)), !(decide_False (P := o1 = _)) by lia. unfold choice. destruct (decide (k = 0)) as [->|]; [by rewrite decide_True|]. rewrite decide_False; [done|lia]. }
    destruct (owner l q) as [[[o| |] mi mouts]|] eqn:Eo; try (apply Hcti; intros; discriminate).
    destruct o as [| |w mapping d| | | |]; try (apply Hcti; intros; discriminate). destruct mi as [|mo rest]; [apply Hcti; intros; discriminate|]. clear Hcti.
    destruct mapping as [|[cv cs] [|]]; [done| |done]. destruct (decide (cs = d)) as [|Hcd]; [done|].
    assert (Hbm : base mo). { right. right. eexists. split; [exact Eo|]. by left. }
    destruct (Hg _ Eo) as ((Hw & Hgm) & Hal). specialize (Hal _ _ _ eq_refl (cv, cs) ltac:(by left)). cbn [snd] in Hal. specialize (Hgm (cv, cs) ltac:(by left)). cbn [fst] in Hgm. destruct Hgm as (Hcv & H64 & H63).
    assert (Halt : forall z, alternative [(cv, cs)] d z = if decide (cv = z) then cs else d).
    { intros z. unfold alternative. cbn. destruct (decide (cv = z)); done. }
    destruct (decide (w = 1 /\ cv = Z.of_nat cs)%Z) as [[-> ->]|Hni].
    - intros [= <- <-]. exists o0, o1. split; [done|]. split; [|split; [right; cbn; lia|]; split].
      + split; [done|]. split; [intros n Hn; ins Hn; by eexists|]. intros n x Hn Hx. ins Hn; ins Hx; left; try done; unfold base; tauto.
      + intros rho k (Hq & Hk & Hm) Hh. rewrite !hold_cons in Hh. destruct Hh as (H2 & _). apply select_holds in H2 as (z & H2 & ->). destruct (Hm _ _ _ _ _ _ Eo) as (z' & Hz & Hr' & ->). rewrite H2 in Hz. injection Hz as <-. rewrite Halt in *. unfold choice. change (2 ^ 1)%Z with 2%Z in *.
        destruct (decide (Z.of_nat cs = z)) as [Ez|Ez]; destruct (decide (z = 0)%Z) as [E2|E2].
        * rewrite decide_True; [done|lia].
        * rewrite decide_False; [done|lia].
        * rewrite decide_True; [done|lia].
        * rewrite decide_False; [done|lia].
      + intros rho k Hd Hb. destruct (Hd) as (Hq & Hk & Hm). destruct (Hm _ _ _ _ _ _ Eo) as (z & Hz & Hr' & _). exists (fun x => if decide (x = next) then if decide (z = 0)%Z then rho o0 else rho o1 else rho x). cbn [length]. split; [intros x Hx; rewrite !decide_False by lia; done|].
        assert (mo < next) by (by apply Hb). assert (o0 < next) by (apply Hb; right; by left). assert (o1 < next) by (apply Hb; right; by left).
        rewrite !hold_cons. split; [|apply hold_nil]. apply select_holds. exists z. rewrite (decide_False (P := mo = _)), (decide_False (P := o0 = _)), (decide_False (P := o1 = _)), decide_True by (try lia; done). done.
    - rewrite (constant_ok w cv Hw Hcv H64 H63). intros [= <- <-]. exists o0, o1. split; [done|]. split; [|split; [right; cbn; lia|]; split].
      + split; [done|]. split; [intros n Hn; ins Hn; by eexists|]. intros n x Hn Hx. ins Hn; ins Hx; try (left; done); try (left; destruct (decide (cs = 0)); unfold base; tauto); right; (split; [cbn; lia|]; intros z Hz; ins Hz; lia).
      + intros rho k (Hq & Hk & Hm) Hh. rewrite !hold_cons in Hh. destruct Hh as (H1 & H2 & H3 & _). apply int_holds in H1. destruct (Hm _ _ _ _ _ _ Eo) as (z & Hz & Hr' & ->). rewrite (eq_holds _ _ _ _ _ _ _ H1 Hz) in H2. apply select_holds in H3 as (z3 & H3 & ->). rewrite H2 in H3. injection H3 as <-. rewrite Halt in *. unfold choice.
        destruct (decide (cv = z)) as [Ez|Ez]; [rewrite (decide_False (P := (1 = 0)%Z)) by lia | rewrite (decide_True (P := (0 = 0)%Z)) by lia]; destruct (decide (cs = 0)) as [Ec|Ec].
        * done.
        * done.
        * rewrite decide_False; [done|lia].
        * rewrite decide_True; [done|lia].
      + intros rho k Hd Hb. destruct (Hd) as (Hq & Hk & Hm). destruct (Hm _ _ _ _ _ _ Eo) as (z & Hz & Hr' & _).
        exists (fun x => if decide (x = next) then VInt w cv else if decide (x = S next) then VInt 1 (if decide (cv = z) then 1 else 0) else if decide (x = S (S next)) then if decide (cv = z) then rho (if decide (cs = 0) then o0 else o1) else rho (if decide (cs = 0) then o1 else o0) else rho x). cbn [length]. split; [intros x Hx; rewrite !decide_False by lia; done|].
        assert (mo < next) by (by apply Hb). assert (o0 < next) by (apply Hb; right; by left). assert (o1 < next) by (apply Hb; right; by left).
        assert (Ho : forall a b : nat, a < next -> b < next -> (if decide (cs = 0) then a else b) < next) by (intros a b Ha Hb'; by destruct (decide (cs = 0))).
        rewrite !hold_cons. split; [|split; [|split; [|apply hold_nil]]].
        * apply int_holds. by rewrite decide_True.
        * rewrite (eq_holds _ w next mo (S next) cv z); [| by rewrite decide_True | rewrite !decide_False by lia; exact Hz]. rewrite decide_False, decide_True by (try lia; done). done.
        * apply select_holds. exists (if decide (cv = z) then 1 else 0)%Z. split; [rewrite decide_False, decide_True by (try lia; done); done|]. rewrite (decide_False (P := S (S next) = next)), (decide_False (P := S (S next) = S next)), (decide_True (P := S (S next) = S (S next))) by (try lia; done).
          pose proof (Ho o0 o1 ltac:(done) ltac:(done)). pose proof (Ho o1 o0 ltac:(done) ltac:(done)). rewrite !(decide_False (P := (if decide (cs = 0) then o1 else o0) = _)), !(decide_False (P := (if decide (cs = 0) then o0 else o1) = _)) by lia.
          destruct (decide (cv = z)); [rewrite (decide_False (P := (1 = 0)%Z)) by lia | rewrite (decide_True (P := (0 = 0)%Z)) by lia]; done.
  Qed.
End Out.
