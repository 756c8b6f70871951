(** All exit variables of one gamma node. *)
From stdpp Require Import base list gmap.
From Coq Require Import ZArith Lia.
From Verif.LocalRegion Require Import Model Spec Facts.
From Verif.Unswitch Require Import Model Spec Proofs1 Proofs3 Proofs7.
From Verif.IfConv Require Import Model Spec Proofs1.
Open Scope nat_scope.

Section Outs.
  Context (other : nat -> list val -> option (list val)) (content : val -> val).
  Local Notation holds := (holds other content).
  Local Notation hold := (hold other content).
  Context (l : list node) (q : nat) (es : list nat) (r0 r1 : region).
  Local Notation routed := (routed es r0 r1).
  Local Notation decides := (decides l q).
  Local Notation base := (base l q es).
  Local Notation made := (made l q es).
  Local Notation exists_for := (exists_for other content l q es).

  (** the pairs of old and new values are right *)
  Definition rights (ts : list (nat * (nat * nat))) (news : list node) (olds ys : list nat) : Prop := forall rho k, decides rho k -> hold rho news ->
    forall j x y, olds !! j = Some x -> ys !! j = Some y -> exists y0 y1 o0 o1, (x, (y0, y1)) ∈ ts /\ routed y0 y1 o0 o1 /\ rho y = choice k (rho o0) (rho o1).
  Definition types (ts : list (nat * (nat * nat))) (next : nat) (news : list node) (olds ys : list nat) : Prop := forall ty : nat -> nat,
    (forall x y0 y1 o0 o1, (x, (y0, y1)) ∈ ts -> routed y0 y1 o0 o1 -> ty x = ty o0) -> (forall t, t ∈ ts -> t.1 < next) -> (forall x, x ∈ es -> x < next) ->
    exists ty' : nat -> nat, (forall z, z < next \/ next + length news <= z -> ty' z = ty z) /\ forall j x y, olds !! j = Some x -> ys !! j = Some y -> ty' y = ty x.
  Lemma convert_outs_ok ts : forall next news olds ys, good_owner l q -> convert_outs l q es r0 r1 ts next = Some (news, olds, ys) ->
    made next news /\ length olds = length ys /\ (forall x, x ∈ olds -> exists p, (x, p) ∈ ts) /\ (NoDup (map fst ts) -> NoDup olds) /\ (forall y, y ∈ ys -> y ∈ es \/ next <= y < next + length news) /\
    rights ts news olds ys /\ exists_for next news /\ types ts next news olds ys.
  Proof.
    induction ts as [|[x [y0 y1]] ts IH]; intros next news olds ys Hg; cbn [convert_outs].
    - intros [= <- <- <-]. split; [split; [done|]; split; intros n; [intros Hn|intros z Hn]; by apply elem_of_nil in Hn|]. split; [done|]. split; [intros z Hz; by apply elem_of_nil in Hz|]. split; [intros _; apply NoDup_nil_2|]. split; [intros z Hz; by apply elem_of_nil in Hz|]. split; [intros rho k _ _ j z y H; by rewrite lookup_nil in H|]. split.
      + intros rho k _ _. exists rho. split; [done|]. intros n Hn. by apply elem_of_nil in Hn.
      + intros ty _ _ _. exists ty. split; [done|]. intros j z y H. by rewrite lookup_nil in H.
    - destruct (convert_out l q es r0 r1 y0 y1 next) as [|ns y|] eqn:Ec; [| |done].
      + intros H. destruct (IH _ _ _ _ Hg H) as (A1 & A2 & A3 & A4 & A5 & A6 & A7 & A8). split; [done|]. split; [done|]. split; [intros z Hz; destruct (A3 z Hz) as [p Hp]; exists p; by right|]. split; [intros Hn; cbn in Hn; apply NoDup_cons in Hn as [_ Hn]; by apply A4|]. split; [done|]. split; [|split].
        * intros rho k Hd Hh j z y Hz Hy. destruct (A6 rho k Hd Hh j z y Hz Hy) as (a & b & c & d & H1 & H2). exists a, b, c, d. split; [by right | done].
        * done.
        * intros ty T1 T2 T3. apply A8; [|intros t Ht; apply T2; by right | done]. intros z a b c d Hz. apply T1. by right.
      + destruct (convert_outs l q es r0 r1 ts (next + length ns)) as [[[n olds'] ys']|] eqn:Er; [|done]. cbn. intros [= <- <- <-].
        destruct (convert_out_ok other content l q es r0 r1 y0 y1 next ns y Hg Ec) as (o0 & o1 & B1 & (B2 & B3 & B4) & B5 & B6 & B7).
        destruct (IH _ _ _ _ Hg Er) as ((C1 & C2 & C3) & A2 & A3 & A4 & A5 & A6 & A7 & A8). rewrite app_length.
        assert (Ho0 : o0 ∈ es). { destruct B1 as (i0 & i1 & _ & _ & H & _). by eapply elem_of_list_lookup_2. }
        split; [|split; [|split; [|split; [|split; [|split; [|split]]]]]].
        * split; [|split].
          -- rewrite app_length, all_outs_app, B2, C1. by rewrite seq_app.
          -- intros m Hm. apply elem_of_app in Hm as [Hm|Hm]; auto.
          -- intros m z Hm Hz. rewrite app_length. apply elem_of_app in Hm as [Hm|Hm]; [destruct (B4 m z Hm Hz) as [H|[H H']] | destruct (C3 m z Hm Hz) as [H|[H H']]]; [by left | | by left |]; right; (split; [lia | done]).
        * cbn. by f_equal.
        * intros z Hz. apply elem_of_cons in Hz as [->|Hz]; [by eexists; left|]. destruct (A3 z Hz) as [p Hp]. exists p. by right.
        * intros Hn. cbn in Hn. apply NoDup_cons in Hn as [Hx Hn]. apply NoDup_cons. split; [|by apply A4]. intros Hc. apply Hx. destruct (A3 x Hc) as [p Hp]. apply elem_of_list_fmap. by exists (x, p).
        * intros z Hz. apply elem_of_cons in Hz as [->|Hz]; [destruct B5 as [->|B5]; [by left | right; lia]|]. destruct (A5 z Hz) as [H|H]; [by left | right; lia].
        * intros rho k Hd Hh j z u Hz Hu. apply hold_app in Hh as [Hh1 Hh2]. destruct j as [|j]; cbn in Hz, Hu.
          -- injection Hz as <-. injection Hu as <-. exists y0, y1, o0, o1. split; [by left|]. split; [done|]. by apply B6.
          -- destruct (A6 rho k Hd Hh2 j z u Hz Hu) as (a & b & c & d & H1 & H2). exists a, b, c, d. split; [by right | done].
        * intros rho k Hd Hb. destruct (B7 rho k Hd Hb) as (rho1 & D1 & D2). destruct (A7 rho1 k) as (rho2 & D3 & D4).
          -- destruct Hd as (H1 & H2 & H3). split; [rewrite D1; [done|]; left; apply Hb; by left|]. split; [done|]. intros w m d mo rest outs Ho. destruct (H3 _ _ _ _ _ _ Ho) as (z & Hz & Hr). exists z. split; [|done]. rewrite D1; [done|]. left. apply Hb. right. right. eexists. split; [exact Ho|]. by left.
          -- intros z Hz. specialize (Hb z Hz). lia.
          -- exists rho2. split; [intros z Hz; rewrite app_length in Hz; rewrite D3 by lia; apply D1; lia|]. apply hold_app. split; [|done]. eapply hold_ext; [|exact D2]. intros m z Hm Hz. symmetry. apply D3. left. apply elem_of_app in Hz as [Hz|Hz].
             ++ destruct (B4 m z Hm Hz) as [H|[H _]]; [specialize (Hb z H); lia | lia].
             ++ assert (Hin : z ∈ all_outs ns) by (apply elem_all_outs; by exists m). rewrite B2 in Hin. apply elem_of_seq in Hin. lia.
        * intros ty T1 T2 T3. destruct (A8 ty) as (ty2 & E1 & E2); [intros z a b c d Hz; apply T1; by right | intros t Ht; specialize (T2 t ltac:(by right)); lia | intros z Hz; specialize (T3 z Hz); lia |].
          pose proof (T1 x y0 y1 o0 o1 ltac:(by left) B1) as Hxo. pose proof (T3 o0 Ho0) as T3o.
          exists (fun z => if decide (next <= z < next + length ns) then ty x else ty2 z). rewrite app_length. split.
          -- intros z Hz. rewrite decide_False by lia. apply E1. lia.
          -- intros j z u Hz Hu. destruct j as [|j]; cbn in Hz, Hu.
             ++ injection Hz as <-. injection Hu as <-. destruct (decide (next <= y < next + length ns)) as [|Hny]; [done|]. destruct B5 as [->|B5]; [|done]. rewrite E1 by lia. done.
             ++ assert (Hu' : u ∈ ys') by (by eapply elem_of_list_lookup_2). rewrite decide_False; [by eapply E2|]. destruct (A5 u Hu') as [H|H]; [specialize (T3 u H)|]; lia.
  Qed.
End Outs.
