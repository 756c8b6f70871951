(** Common node elimination: the theorems. *)
From stdpp Require Import base list list_numbers fin_sets gmap.
From Verif.Rvsdg Require Import Model Spec Sem Wf WfFacts Args Divert Local Run Refine.
From Verif.Dne Require Import Model ProofsShrink ProofsMain.
From Verif.Ivr Require Import Model ProofsMain.
From Verif.Cne Require Import Model Spec ProofsSem ProofsState ProofsPart Just JustView Pre ProofsSimple ProofsOuts ProofsSubs ProofsMain ProofsFresh.

Lemma avail_split s av ns : (forall pre n post o, ns = pre ++ n :: post -> o ∈ nouts n -> s o ∈ av \/ (exists m, m ∈ pre /\ s o ∈ nouts m) \/ s o ∈ nouts n) <-> avail_ok s av ns.
Proof.
  revert av. induction ns as [|n ns IH]; intros av; cbn [avail_ok].
  - split; [done|]. intros _ [|] ? ? ? ?; done.
  - rewrite <-IH. split.
    + intros H. split.
      * intros x Hx. destruct (H [] n ns x eq_refl Hx) as [Hy|[(m & Hm & _)|Hy]]; [apply elem_of_app; by left | by apply elem_of_nil in Hm | apply elem_of_app; by right].
      * intros pre m post o -> Ho. destruct (H (n :: pre) m post o eq_refl Ho) as [Hy|[(m' & Hm & Hy)|Hy]]; [left; apply elem_of_app; by left | | right; by right].
        apply elem_of_cons in Hm as [->|Hm]; [left; apply elem_of_app; by right | right; left; eauto].
    + intros [H1 H2] [|n' pre] m post o [= -> ->] Ho.
      * destruct (proj1 (elem_of_app _ _ _) (H1 o Ho)) as [?|?]; [by left | right; by right].
      * destruct (H2 pre m post o eq_refl Ho) as [[Hy|Hy]%elem_of_app|[(m' & Hm & Hy)|Hy]]; [by left | right; left; exists n'; split; [left | done] | right; left; exists m'; split; [by right | done] | right; by right].
Qed.
Lemma leaders_first_dok s : (forall n, (forall r, r ∈ nsubs n -> leaders_first s r) <-> dok_node s n) /\ (forall r, leaders_first s r <-> dok_region s r).
Proof.
  apply tree_ind.
  - intros id k ins outs subs IH. cbn [dok_node nsubs]. rewrite fold_and, Forall_forall. rewrite Forall_forall in IH. split; intros H r Hr; apply (IH r Hr); auto.
  - intros args res ns IH. cbn [dok_region]. rewrite fold_and, Forall_forall, <-avail_split. rewrite Forall_forall in IH. split.
    + intros H. pose proof (H _ (reg_root _)) as [H1 H2]. cbn [rargs rnodes] in H1, H2. split; [done|]. split; [done|]. intros n Hn. apply (IH n Hn). intros r Hr r' Hr'. apply H. eapply reg_trans; [|exact Hr']. eapply reg_sub; [constructor | exact Hn | exact Hr].
    + intros (H1 & H2 & H3) r Hr. assert (Hc : r = Region args res ns \/ exists n r', n ∈ ns /\ r' ∈ nsubs n /\ reg r' r).
      { clear -Hr. induction Hr as [|r n r' Hr IH Hn Hr']; [by left|]. right. destruct IH as [->|(m & r0 & Hm & Hr0 & IH)]; [exists n, r'; split; [done|]; split; [done | constructor] | exists m, r0; split; [done|]; split; [done|]; by eapply reg_sub]. }
      destruct Hc as [->|(n & r' & Hn & Hr' & Hreg)]; [done|]. apply (proj2 (IH n Hn)) with (r := r') in Hreg; auto.
Qed.

Section Cne.
  Context (choose : cstate -> list nat -> option nat) (Hch : forall σ l x, choose σ l = Some x -> x ∈ l).
  Lemma mark_start t : wf t -> let σ := make_leaders (rargs t) cstate0 in SW σ /\ pre_region σ t /\ unmarked σ (rdefs t).*1 /\ forall a, a ∈ rargs t -> marked σ a /\ lead σ a = a.
  Proof using.
    clear Hch. intros Hw. destruct (make_leaders_spec (rargs t) cstate0 SW0) as (H1 & H2 & H3). cbn zeta. apply wf_good in Hw as (_ & Hk & _). apply NoDup_app in Hk as (_ & Hk & _).
    assert (Hu : unmarked (make_leaders (rargs t) cstate0) (rdefs t).*1). { intros x Hx. rewrite (proj2 H2); [done|]. intros Ha. by apply (Hk x Ha). }
    split; [done|]. split; [by apply pre_fresh|]. done.
  Qed.
  Lemma mark_spec t σ : wf t -> mark choose t = Some σ -> SW σ /\ (forall a, a ∈ rargs t -> marked σ a /\ lead σ a = a) /\ (dok_region (lead σ) t -> jregion (lead σ) t).
  Proof using Hch.
    intros Hw H. destruct (mark_start t Hw) as (H1 & H2 & H3 & H4). pose proof (proj1 (wf_good t) Hw) as Hg. destruct (proj2 (mark_ok choose Hch) t Hg _ _ H1 H2 H) as (G1 & G2 & _ & G4). split; [done|]. split; [|done].
    destruct Hg as (_ & Hk & _). apply NoDup_app in Hk as (_ & Hk & _). intros a Ha. destruct (H4 a Ha) as [K1 K2]. rewrite (ext_lead _ _ _ _ H1 G2) by (by apply Hk). split; [|done]. eapply ext_marked; [exact G2 | by apply Hk | done].
  Qed.
  Lemma dregion_wf s t : wf t -> dok_region s t -> wf (dregion s t).
  Proof using. clear. intros (H1 & H2 & H3) Hd. split; [by apply wf_dregion|]. rewrite keys_dregion by done. split; [done|]. by rewrite (proj2 (ids_dsub s)). Qed.

  Section Values.
    Context {V : Type} (ctl : V -> option nat) (content : V -> V) (sem : nat -> list V -> option (list V)) (addr imp : nat -> V).
    Lemma dok_sound t σ : wf t -> mark choose t = Some σ -> dok_region (lead σ) t -> wf (dregion (lead σ) t) /\ same_functions ctl content sem addr imp t (dregion (lead σ) t).
    Proof using Hch.
      intros Hw Hm Hd. destruct (mark_spec t σ Hw Hm) as (H1 & H2 & H3). pose proof (dregion_wf _ _ Hw Hd) as Hw'. split; [done|].
      assert (Hj : forall o w, (o, w) ∈ defs t -> just (fun d => d ∈ defs t) (lead σ) o w /\ args_cong (lead σ) w). { intros o w. apply just_all; [apply Hw | intros x; by apply lead_idem | intros a Ha; by apply H2 | by apply H3]. }
      apply cong_refines; [apply Hw | apply Hw | apply Hw' | intros o w Ho; by apply Hj | intros o w Ho; by eapply Hj].
    Qed.
    (** C40: if in every region the leader of every congruence set comes before its followers, then common node elimination gives a well-formed module that
        computes the same. Missing: without that, the claim is false ([cne_sound_refuted]). *)
    Theorem cne_sound_partial t σ t' : wf t -> mark choose t = Some σ -> cne choose t = Some t' -> leaders_first (lead σ) t -> wf t' /\ same_functions ctl content sem addr imp t t'.
    Proof using Hch. intros Hw Hm H Hd. unfold cne in H. rewrite Hm in H. injection H as <-. apply dok_sound; [done | done | by apply leaders_first_dok]. Qed.
    (** C40: and it does in modules without loops *)
    Theorem cne_leaders_first_theta_free t σ : wf t -> theta_free t -> mark choose t = Some σ -> leaders_first (lead σ) t.
    Proof using Hch.
      intros Hw Ht Hm. destruct (mark_start t Hw) as (H1 & H2 & H3 & H4). apply leaders_first_dok. eapply (proj2 (fresh_ok choose Hch) t); [by apply wf_good | done | exact H1 | done | | exact Hm]. intros a Ha. destruct (H4 a Ha) as [_ ->]. done.
    Qed.
    Theorem cne_theta_free_sound t t' : wf t -> theta_free t -> cne choose t = Some t' -> wf t' /\ same_functions ctl content sem addr imp t t'.
    Proof using Hch.
      intros Hw Ht H. destruct (mark choose t) as [σ|] eqn:Hm; [|unfold cne in H; by rewrite Hm in H]. eapply cne_sound_partial; [done | exact Hm | done | by apply cne_leaders_first_theta_free].
    Qed.
  End Values.
  (** C40: nodes and outputs stay, only the origins of inputs and results change: to an output of the same congruence set *)
  Theorem cne_keeps_nodes t t' : wf t -> cne choose t = Some t' -> region_ids t' = region_ids t /\ (defs t').*1 = (defs t).*1.
  Proof using. clear Hch. intros (Hw & _) H. unfold cne in H. destruct (mark choose t) as [σ|]; [|done]. injection H as <-. split; [apply ids_dsub | by apply keys_dregion]. Qed.
End Cne.

(** a gamma node with two equal computations, inside a function; without loops *)
Module CneExample.
  Definition branch (a : nat) : region := Region [a; a + 1; a + 2] [a + 4; a + 3] [Node (a + 3) (Simple 7) [a + 1] [a + 3] []; Node (a + 4) (Simple 7) [a + 2] [a + 4] []].
  Definition fn : region := Region [30; 31; 1000] [43; 44; 46]
    [ Node 40 (Simple 2) [31; 1000] [40] []; Node 41 (Simple 2) [31; 1000] [41] []; Node 42 Gamma [30; 40; 41] [43; 44] [branch 100; branch 200]; Node 45 (Simple 3) [41] [46] []; Node 47 (Simple 3) [40] [47] [] ].
  Definition prog : region := Region [1] [20] [Node 10 (Lambda 2) [1] [20] [fn]].
  Definition prog' : region := default region0 (cne (fun _ => head) prog).
  Lemma prog_wf : wf prog.
  Proof.
    split; [|split; apply (bool_decide_unpack _); vm_compute; exact I].
    cbn; repeat match goal with
    | |- _ /\ _ => split
    | |- Forall _ _ => constructor
    | |- exists r, _ = r /\ _ => eexists; split; [reflexivity|]
    | |- exists r, [?x] = [r] /\ _ => exists x
    | |- _ ∈ _ => apply (bool_decide_unpack _); vm_compute; exact I
    | |- True => exact I
    | |- _ => first [reflexivity | discriminate]
    end.
  Qed.
  Lemma prog_free : theta_free prog.
  Proof.
    assert (H : forall r, reg prog r -> r = prog \/ r = fn \/ r = branch 100 \/ r = branch 200).
    { intros r Hr. induction Hr as [|r n r' Hr IH Hn Hr']; [by left|].
      destruct IH as [->|[->|[->| ->]]]; cbn in Hn; repeat (apply elem_of_cons in Hn as [->|Hn]; [cbn in Hr'; repeat (apply elem_of_cons in Hr' as [->|Hr']; [tauto|]); by apply elem_of_nil in Hr'|]); by apply elem_of_nil in Hn. }
    intros r n Hr Hn. destruct (H r Hr) as [->|[->|[->| ->]]]; cbn in Hn; repeat (apply elem_of_cons in Hn as [->|Hn]; [done|]); by apply elem_of_nil in Hn.
  Qed.
  Example cne_example : wf prog /\ theta_free prog /\ cne (fun _ => head) prog = Some prog'.
  Proof. split; [exact prog_wf|]. split; [exact prog_free|]. unfold prog'. vm_compute. reflexivity. Qed.
  (** the two results of the gamma node become one, in the branches and outside *)
  Example cne_example_res : map rres (nth 0 (map nsubs (rnodes prog')) []) = [[43; 43; 46]].
  Proof. vm_compute. reflexivity. Qed.
End CneExample.
