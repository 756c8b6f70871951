(** Normalization. *)
From stdpp Require Import tactics relations base list list_numbers fin_sets gmap fin_maps.
From Verif.Construct Require Import Model Spec ProofsSets.
From Verif.Aggregation Require Import Model Spec ProofsRun ProofsStep.

Definition leo (p q : option nat) : Prop := forall v, p = Some v -> q = Some v.
Definition fin (prev : option nat) (l : list tree) : option nat := match last (map ends_with l) with Some p => p | None => prev end.
Lemma fin_cons prev t l : fin prev (t :: l) = fin (ends_with t) l.
Proof. unfold fin. rewrite map_cons, last_cons. by destruct (last (map ends_with l)). Qed.
Lemma fin_app prev l1 l2 : fin prev (l1 ++ l2) = fin (fin prev l1) l2.
Proof. revert prev. induction l1 as [|t l IH]; intros prev; [done|]. rewrite <-app_comm_cons, !fin_cons. apply IH. Qed.
Notation flat l := (l ≫= fun c => parts (normalize c)) (only parsing).
Lemma ok_seq_app f prev l1 l2 : ok_seq f prev (l1 ++ l2) <-> ok_seq f prev l1 /\ ok_seq f (fin prev l1) l2.
Proof. revert prev. induction l1 as [|t l IH]; intros prev; cbn; [tauto|]. rewrite IH, fin_cons. tauto. Qed.
Lemma normalize_linear l : normalize (Linear l) = Linear (flat l).
Proof. done. Qed.
Lemma parts_cases t : (exists l, t = Linear l /\ normalize t = Linear (flat l) /\ parts (normalize t) = flat l) \/ (forall l, t <> Linear l) /\ parts (normalize t) = [normalize t].
Proof. destruct t as [l|l|l|b]; [right|left; eauto|right|right]; (split; [by intros ?|done]). Qed.
Lemma normalize_normal t : normal (normalize t).
Proof.
  induction t as [l|l IH|l IH|b IH] using tree_ind'; [done| | |done].
  - rewrite normalize_linear. assert (Hall : Forall (fun c => (forall l', c <> Linear l') /\ normal c) (flat l)).
    { induction IH as [|t l Ht _ IHl]; [constructor|]. change (flat (t :: l)) with (parts (normalize t) ++ flat l). apply Forall_app. split; [|exact IHl].
      destruct (parts_cases t) as [(l' & -> & Hn & ->)|(Hn & ->)].
      - rewrite Hn in Ht. cbn [normal] in Ht. revert Ht. generalize (flat l'). intros m. induction m as [|t m IHm]; [constructor|]. intros (H1 & H2). constructor; [done|]. by apply IHm.
      - constructor; [|constructor]. split; [|done]. intros l'. destruct t; [done|by edestruct Hn|done|done]. }
    cbn [normal]. induction Hall as [|t m H _ IHm]; [done|]. by split.
  - cbn. induction IH as [|t l Ht _ IHl]; [done|]. cbn. by split.
Qed.
Section Exec.
  Context {V : Type} (ctl : V -> option nat) (sem : nat -> list V -> option (list V)) (truth : V -> bool).
  Notation exec := (exec ctl sem truth).
  Lemma exec_seq_app prev l1 l2 σ σ' : exec_seq exec prev (l1 ++ l2) σ σ' <-> exists σ1, exec_seq exec prev l1 σ σ1 /\ exec_seq exec (fin prev l1) l2 σ1 σ'.
  Proof using.
    revert prev σ. induction l1 as [|t l IH]; intros prev σ; cbn [app].
    - split; [intros H; by exists σ|]. cbn. intros (σ1 & -> & H). done.
    - cbn [exec_seq]. setoid_rewrite IH. setoid_rewrite fin_cons. split; [intros (σ1 & H1 & σ2 & H2 & H3); eauto|intros (σ2 & (σ1 & H1 & H2) & H3); eauto].
  Qed.
  Definition good (t : tree) : Prop := forall prev prev', leo prev prev' -> tree_ok prev t ->
    (forall σ σ', exec prev' (normalize t) σ σ' <-> exec prev t σ σ') /\ tree_ok prev' (normalize t) /\ leo (ends_with t) (ends_with (normalize t)).
  Definition goods (l : list tree) : Prop := forall prev prev', leo prev prev' -> ok_seq tree_ok prev l ->
    (forall σ σ', exec_seq exec prev' (flat l) σ σ' <-> exec_seq exec prev l σ σ') /\ ok_seq tree_ok prev' (flat l) /\ leo (fin prev l) (fin prev' (flat l)).
  (** the parts of a normalized tree, as a sequence *)
  Lemma good_parts t : good t -> (forall l, t = Linear l -> goods l) -> forall prev prev', leo prev prev' -> tree_ok prev t ->
    (forall σ σ', exec_seq exec prev' (parts (normalize t)) σ σ' <-> exec prev t σ σ') /\ ok_seq tree_ok prev' (parts (normalize t)) /\ leo (ends_with t) (fin prev' (parts (normalize t))).
  Proof using.
    intros Hg Hl prev prev' Hle Hok. destruct (parts_cases t) as [(l & -> & _ & ->)|(_ & ->)].
    - cbn in Hok. destruct (Hl l eq_refl None prev' ltac:(by intros ?) Hok) as (H1 & H2 & H3). split; [exact H1|]. split; [exact H2|]. exact H3.
    - destruct (Hg prev prev' Hle Hok) as (H1 & H2 & H3). split; [|split; [cbn; done|by rewrite fin_cons]]. intros σ σ'. cbn. rewrite <-H1. split; [intros (σ1 & H & ->); done|intros H; by exists σ'].
  Qed.
  Lemma goods_all l : Forall (fun t => good t /\ forall l, t = Linear l -> goods l) l -> goods l.
  Proof using.
    induction 1 as [|t l (Hg & Hl) _ IH]; intros prev prev' Hle Hok.
    - cbn. done.
    - cbn in Hok. destruct Hok as (Ht & Hok). destruct (good_parts t Hg Hl prev prev' Hle Ht) as (H1 & H2 & H3). destruct (IH _ _ H3 Hok) as (G1 & G2 & G3).
      change (flat (t :: l)) with (parts (normalize t) ++ flat l). split; [|split].
      + intros σ σ'. rewrite exec_seq_app. cbn [exec_seq]. setoid_rewrite H1. setoid_rewrite G1. done.
      + rewrite ok_seq_app. done.
      + rewrite fin_app, fin_cons. done.
  Qed.
  Lemma good_all t : good t /\ forall l, t = Linear l -> goods l.
  Proof using.
    induction t as [l|l IH|l IH|b (IH & _)] using tree_ind'.
    - split; [|done]. intros prev prev' _ _. split; [intros σ σ'; done|]. split; [done|]. by intros p.
    - pose proof (goods_all l IH) as Hg. split; [|by intros l' [= <-]]. intros prev prev' _ Hok. cbn in Hok. destruct (Hg None None ltac:(by intros ?) Hok) as (H1 & H2 & H3).
      split; [exact H1|]. split; [exact H2|]. exact H3.
    - split; [|done]. intros prev prev' Hle (Hl & (p & Hp) & Hall). pose proof (Hle p Hp) as Hp'. subst prev. split; [|split; [|done]].
      + intros σ σ'. cbn. rewrite Hp'. assert (Hi : forall b, match map (fun c => exec None c) (map normalize l) !! b with Some R => R σ σ' | None => False end <-> match map (fun c => exec None c) l !! b with Some R => R σ σ' | None => False end).
        { clear Hl. induction IH as [|t l (Hg & _) _ IHl]; [done|]. cbn in Hall. destruct Hall as (Ht & Hall). intros [|b]; cbn; [|by apply IHl]. by apply (Hg None None ltac:(by intros ?) Ht). }
        split; intros (q & b & H1 & H2 & H3); exists q, b; (split; [done|]); (split; [done|]); by apply Hi.
      + cbn. split; [by destruct l|]. split; [eauto|]. clear Hl. induction IH as [|t l (Hg & _) _ IHl]; [done|]. cbn in Hall |- *. destruct Hall as (Ht & Hall). split; [|by apply IHl].
        by apply (Hg None None ltac:(by intros ?) Ht).
    - split; [|done]. intros prev prev' _ ((p & Hp) & Hb). destruct (IH None None ltac:(by intros ?) Hb) as (H1 & H2 & H3). specialize (H3 _ Hp). split; [|split; [|done]].
      + intros σ σ'. cbn. rewrite Hp, H3. assert (Hr : forall σ σ', repeat_loop ctl (exec None (normalize b)) p σ σ' <-> repeat_loop ctl (exec None b) p σ σ').
        { clear -H1. intros σ σ'. split; induction 1 as [? ? H|? ? ? H ? _ IH]; [apply rep_exit|eapply rep_next|apply rep_exit|eapply rep_next]; eauto; by apply H1. }
        split; intros (q & [= <-] & H); exists p; (split; [done|]); by apply Hr.
      + cbn. split; [eauto|done].
  Qed.
  Lemma normalize_exec t σ σ' : tree_ok None t -> exec None (normalize t) σ σ' <-> exec None t σ σ'.
  Proof using. intros H. destruct (good_all t) as (Hg & _). by apply (Hg None None ltac:(by intros ?) H). Qed.
  Lemma parts_exec t σ σ' : tree_ok None t -> exec_seq exec None (parts t) σ σ' <-> exec None t σ σ'.
  Proof using.
    intros Hok. assert (H : (forall l, t <> Linear l) -> exec_seq exec None [t] σ σ' <-> exec None t σ σ').
    { intros _. cbn. split; [intros (σ1 & H & ->); done|intros H; by exists σ']. } destruct t; [by apply H| done|by apply H|by apply H].
  Qed.
End Exec.
Lemma normalize_ok t : tree_ok None t -> tree_ok None (normalize t).
Proof. intros H. destruct (good_all (V := unit) (fun _ => None) (fun _ _ => None) (fun _ => true) t) as (Hg & _). by apply (Hg None None ltac:(by intros ?) H). Qed.
Lemma parts_ok t : tree_ok None t -> ok_seq tree_ok None (parts t).
Proof. destruct t; cbn; tauto. Qed.
