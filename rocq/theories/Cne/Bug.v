(** Common node elimination can change what a program computes. *)
From stdpp Require Import base list list_numbers fin_sets gmap.
From Verif.Rvsdg Require Import Model Spec Sem Wf WfFacts Run Divert Local.
From Verif.Cne Require Import Model Spec.

Definition pass2 (a b c d : nat) : list region := [Region [a; b] [b] []; Region [c; d] [d] []].
Definition body : region :=
  Region [11; 12; 13; 14; 15; 16; 17] [17; 31; 32; 33; 34; 50; 60; 35]
    [ Node 31 (Simple 1) [11] [31] []; Node 32 (Simple 2) [12] [32] []; Node 33 (Simple 1) [13] [33] []; Node 34 (Simple 2) [14] [34] [];
      Node 35 (Simple 4) [] [35] [];
      Node 40 (Simple 3) [11; 13] [40] [];
      Node 51 (Simple 5) [17] [51] [];
      Node 41 Gamma [17; 11; 12; 17] [41; 42]
        [ Region [100; 101; 102; 103] [110; 101] [Node 110 Gamma [103; 101] [110] (pass2 111 112 113 114)];
          Region [200; 201; 202; 203] [210; 202] [Node 210 Gamma [203; 202] [210] (pass2 211 212 213 214)] ];
      Node 52 (Simple 5) [51] [52] [];
      Node 50 (Simple 3) [42; 13] [50] [];
      Node 53 (Simple 5) [52] [53] [];
      Node 56 Gamma [53; 14] [56] (pass2 301 302 303 304);
      Node 60 (Simple 3) [41; 56] [60] [] ].
Definition prog : region := Region [1; 2; 3; 4; 5] [25; 26] [Node 20 Theta [1; 1; 2; 2; 3; 4; 5] [21; 22; 23; 24; 25; 26; 27] [body]].
Definition sem (op : nat) (vs : list nat) : option (list nat) :=
  match op, vs with
  | 1, [x] => Some [x + 1] | 2, [x] => Some [x + 2] | 3, [x; y] => Some [x + 10 * y] | 4, [] => Some [0] | 5, [x] => Some [x] | _, _ => None
  end.
Lemma prog_wf : wf prog.
Proof.
  split; [|split; apply (bool_decide_unpack _); vm_compute; exact I].
  cbn; repeat match goal with
  | |- _ /\ _ => split
  | |- Forall _ _ => constructor
  | |- exists r, _ = r /\ _ => eexists; split; [reflexivity|]
  | |- exists r, [?x] = [r] /\ _ => exists x
  | |- _ ∈ _ => apply (bool_decide_unpack _); vm_compute; exact I
  | |- True => exact I
  | |- _ => first [reflexivity | discriminate]
  end.
Qed.
(** The first result of the module is 22 before and 32 after common node elimination: the second pass over the body of the loop makes node 50 a follower of
    node 60, which comes later and still has the congruence sets of the first pass. *)
Theorem cne_sound_refuted : exists t t' choose, wf t /\ (forall σ l, match choose σ l with Some x => x ∈ l | None => l = [] end) /\ cne choose t = Some t' /\
  exists sem imp o o' v v', head (rres t) = Some o /\ head (rres t') = Some o' /\ ev Some id sem id imp t emp o v /\ ev Some id sem id imp t' emp o' v' /\ v <> v'.
Proof.
  eexists prog, _, (fun _ => head). split; [exact prog_wf|]. split; [intros σ [|x l]; [done | left]|]. split; [vm_compute; reflexivity|].
  exists sem, (fun _ => 1), 25, 25, 22, 32. do 2 (split; [done|]).
  assert (Hr : forall t o v, run Some id sem id (fun _ => 1) (defs t) 30 [] o = Some v -> ev Some id sem id (fun _ => 1) t emp o v).
  { intros t o v H. apply run_ev in H. eapply ev_env_mono; [|exact H]. intros a u Ha. done. }
  split; [apply Hr; vm_compute; reflexivity|]. split; [apply Hr; vm_compute; reflexivity | done].
Qed.
(** and that is against the invariant the code documents (96-99): a leader comes before its followers *)
Theorem cne_leaders_first_refuted : exists t σ choose, wf t /\ (forall σ l, match choose σ l with Some x => x ∈ l | None => l = [] end) /\ mark choose t = Some σ /\ ~ leaders_first (lead σ) t.
Proof.
  assert (He : option_map (fun σ => lead σ 50) (mark (fun _ => head) prog) = Some 60) by (vm_compute; reflexivity). destruct (mark (fun _ => head) prog) as [σ|] eqn:Em; [|done]. cbn [option_map] in He. injection He as He.
  exists prog, σ, (fun _ => head). split; [exact prog_wf|]. split; [intros σ' [|x l]; [done | left]|]. split; [exact Em|].
  intros H. destruct (H body) as [_ H']; [eapply reg_sub; [constructor | left | left]|]. clear H Em.
  specialize (H' (take 9 (rnodes body)) (Node 50 (Simple 3) [42; 13] [50] []) (drop 10 (rnodes body)) 50 eq_refl ltac:(left)). rewrite He in H'. assert (Hn : forall l : list nat, existsb (Nat.eqb 60) l = false -> 60 ∉ l).
  { intros l. induction l as [|x l IH]; [intros _ ?%elem_of_nil; done|]. cbn [existsb]. intros [H1 H2]%orb_false_iff [H|H]%elem_of_cons; [subst x; done | by apply IH]. }
  destruct H' as [H'|[(m & Hm & H')|H']]; [by apply Hn in H'| |by apply Hn in H'].
  cbn [take rnodes body] in Hm. repeat (apply elem_of_cons in Hm as [->|Hm]; [by apply Hn in H'|]). by apply elem_of_nil in Hm.
Qed.
