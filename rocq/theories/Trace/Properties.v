(** Tracing outputs: the theorems. *)
From stdpp Require Import base list list_numbers fin_sets gmap.
From Verif.Rvsdg Require Import Model Spec Sem Run Wf WfFacts Det Sim Local Args Refine Chase.
From Verif.Dne Require Import Spec.
From Verif.Trace Require Import Model Spec ProofsOwners ProofsOrder ProofsThrough ProofsStep ProofsMain ProofsCache ProofsStops.

(** the caches a tracer can have: it is created with an empty one, and then traces outputs of the module *)
Inductive session (cfg : config) (t : region) : gmap nat (option nat) -> Prop :=
  | session_new : session cfg t ∅
  | session_trace w o c x c' : session cfg t c -> (exists r, region_of t r /\ owns r o) -> trace cfg t w o c = Done (x, c') -> session cfg t c'.

Section Sound.
  Context {V : Type} (ctl : V -> option nat) (content : V -> V) (sem : nat -> list V -> option (list V)) (addr imp : nat -> V) (cfg : config) (t : region).
  Context (Hwf : wf t) (Hload : loaded cfg = true -> loads_keep_states sem t) (Hbar : barriers_forward sem (barrier cfg)) (Hshape : barriers_have_operands t (barrier cfg)).
  Lemma shape_reg : forall r n op, reg t r -> n ∈ rnodes r -> nkind n = Simple op -> barrier cfg op = true -> length (nouts n) = 1 /\ nins n <> [].
  Proof using Hshape. intros r n op Hr. apply Hshape. by apply reg_region_of. Qed.
  Lemma trace_inv r o w c : region_of t r -> owns r o -> Inv ctl content sem addr imp t c ->
    match trace cfg t w o c with
    | Done (x, c') => (exists r', reg t r' /\ owns r' x) /\ moves ctl content sem addr imp cfg t w o x /\ Inv ctl content sem addr imp t c' /\ (safe t -> ~ mc t o -> ~ mc t x)
    | Failed => ~ (safe t /\ ~ mc t o)
    | Fuel => False
    end.
  Proof using Hwf Hload Hbar Hshape.
    intros Hr%reg_region_of Ho Hi. unfold trace. apply (trace_ok ctl content sem addr imp cfg t Hwf Hload Hbar shape_reg _ r); [done | done | | done].
    pose proof (rank_le t Hwf r o Hr Ho). lia.
  Qed.
  Lemma session_inv c : session cfg t c -> Inv ctl content sem addr imp t c.
  Proof using Hwf Hload Hbar Hshape.
    induction 1 as [|w o c x c' Hs IH (r & Hr & Ho) Ht]; [done|]. pose proof (trace_inv r o w c Hr Ho IH) as H. rewrite Ht in H. apply H.
  Qed.
  (** C48: whenever the traced output has a value, the output that tracing arrives at has the same value, at a point of the execution in the same region or
      around it (or in a phi region); it is one of the module; the region tracing must stay in is not left *)
  Theorem trace_sound r w wr o c x c' st : session cfg t c -> region_of t r -> owns r o -> trace cfg t w o c = Done (x, c') -> denotes t w wr -> point ctl content sem addr imp t st ->
    comes_from ctl content sem addr imp t (interproc cfg) (interproc cfg && enter_phi cfg) wr st o x /\ exists r', region_of t r' /\ owns r' x.
  Proof using Hwf Hload Hbar Hshape.
    intros Hs Hr Ho Ht Hw Hp. pose proof (trace_inv r o w c Hr Ho (session_inv c Hs)) as H. rewrite Ht in H. destruct H as ((r1 & Hr1 & Hx) & Hm & _). split; [|exists r1; split; [by apply reg_region_of | done]].
    intros r0 e st0 v -> Ho0 Hv. destruct (Hm r0 e st0 v Hp Ho0 Hv) as (r' & e' & st' & G1 & G2 & G3 & G4). exists r', e', st'. split; [done|]. split; [by eapply leads_point|]. split; [done|]. split; [done|].
    intros s -> Hin. apply G4; [|done]. destruct w as [[id b]|]; [|done]. by exists id, b.
  Qed.
End Sound.

Section Runs.
  Context (cfg : config) (t : region) (Hwf : wf t) (Hshape : barriers_have_operands t (barrier cfg)).
  (** the proofs of the rest use operations without results *)
  Local Notation none := (fun (_ : nat) (_ : list nat) => None).
  Local Notation inv := (trace_inv (fun _ => None) id none (fun x => x) (fun x => x) cfg t Hwf).
  Lemma none_load : loads_keep_states none t.
  Proof using. done. Qed.
  Lemma none_bar : barriers_forward none (barrier cfg).
  Proof using. done. Qed.
  Lemma run_inv r o w c : session cfg t c -> region_of t r -> owns r o ->
    match trace cfg t w o c with Done (x, c') => exists r', region_of t r' /\ owns r' x | Failed => ~ (safe t /\ ~ mc t o) | Fuel => False end.
  Proof using Hwf Hshape.
    intros Hs Hr Ho. pose proof (inv (fun _ => none_load) none_bar Hshape r o w c Hr Ho (session_inv _ _ _ _ _ cfg t Hwf (fun _ => none_load) none_bar Hshape c Hs)) as H.
    destruct (trace cfg t w o c) as [[x c']| |]; [|done|done]. destruct H as ((r' & Hr' & Hx) & _). exists r'. split; [by apply reg_region_of | done].
  Qed.
  Lemma mc_iff o : mc t o <-> is_match_content t o.
  Proof using Hwf.
    clear Hshape. split.
    - intros (r & n & b & s & Ho & Hk). apply (owner_of_iff t (Hnd t Hwf)) in Ho as (Hr & Hn & Hb & Ha). exists n, b, s. split; [|done]. exists r. split; [by apply reg_region_of | done].
    - intros (n & b & s & Ha & Hk). destruct (arg_owner t Hwf _ _ _ _ _ Ha) as (r & Ho & _). by exists r, n, b, s.
  Qed.
  (** C48: tracing ends *)
  Theorem trace_terminates r w o c : session cfg t c -> region_of t r -> owns r o -> trace cfg t w o c <> Fuel.
  Proof using Hwf Hshape. intros Hs Hr Ho E. pose proof (run_inv r o w c Hs Hr Ho) as H. by rewrite E in H. Qed.
  (** C48: and gives an output, if gammas have branches, nothing uses match contents and tracing does not start from one *)
  Theorem trace_total r w o c : session cfg t c -> region_of t r -> owns r o -> no_match_content t -> gammas_branch t -> ~ is_match_content t o -> exists x c', trace cfg t w o c = Done (x, c').
  Proof using Hwf Hshape.
    intros Hs Hr Ho H1 H2 H3. pose proof (run_inv r o w c Hs Hr Ho) as H. destruct (trace cfg t w o c) as [[x c']| |]; [eauto | | done]. exfalso. apply H. split; [by split|]. by rewrite mc_iff.
  Qed.
  (** tracing from a match content fails an assertion, unless its region must not be left *)
  Theorem trace_match_content_refuted w o c n b s : is_argument t o n b s 0 -> nkind n = Gamma -> w <> Some (nid n, b) -> trace cfg t w o c = Failed.
  Proof using Hwf.
    clear Hshape. intros Ha Hk Hw. destruct (arg_owner t Hwf _ _ _ _ _ Ha) as (r & Ho & _). unfold trace. rewrite Nat.add_1_r. cbn [trace_fuel]. rewrite trace_step_eq. unfold base_step. rewrite Ho. rewrite decide_False by done. by rewrite Hk.
  Qed.

  (** the fuel does not matter *)
  Lemma fuel_enough c w r o F x c' : session cfg t c -> region_of t r -> owns r o -> trace_fuel cfg t F w o c = Done (x, c') -> trace cfg t w o c = Done (x, c').
  Proof using Hwf Hshape.
    intros Hs Hr Ho E. unfold trace. destruct (Nat.le_ge_cases F (2 * length (owners t) + 1)) as [Hle|Hle].
    - destruct (mono_trace cfg t _ _ Hle w o c) as [H|H]; rewrite E in H; done.
    - destruct (mono_trace cfg t _ _ Hle w o c) as [H|H]; [by apply (trace_terminates r w o c) in H|]. by rewrite <-H.
  Qed.
End Runs.

Section Cached.
  Context (cfg : config) (t : region) (Hwf : wf t) (Hshape : barriers_have_operands t (barrier cfg)).
  Local Notation u := (uncached cfg).
  Lemma session_cinv c : session cfg t c -> Cinv cfg t c.
  Proof using Hwf. clear Hshape. induction 1 as [|w o c x c' Hs IH Ho Ht]; [done|]. by apply (trace_fits cfg t Hwf _ w o c x c' IH) in Ht as [H _]. Qed.
  (** C49: a tracer with a cache, whatever it traced before, gives the output that a tracer without cache gives *)
  Theorem cache_transparent r w o c x c' : session cfg t c -> region_of t r -> owns r o -> trace cfg t w o c = Done (x, c') -> trace_output u t w o = Done x.
  Proof using Hwf Hshape.
    intros Hs Hr Ho Ht. destruct (trace_fits cfg t Hwf _ w o c x c' (session_cinv c Hs) Ht) as [_ [F HF]]. specialize (HF F ltac:(done)). unfold trace_output. rewrite (fuel_enough u t Hwf Hshape ∅ w r o F x ∅); [done | constructor | done | done | done].
  Qed.
  (** C49: in particular, asking twice gives the same answer, whatever is traced in between *)
  Theorem cache_stable r w o c1 x1 c1' c2 x2 c2' : session cfg t c1 -> session cfg t c2 -> region_of t r -> owns r o -> trace cfg t w o c1 = Done (x1, c1') -> trace cfg t w o c2 = Done (x2, c2') -> x1 = x2.
  Proof using Hwf Hshape. intros H1 H2 Hr Ho E1 E2. pose proof (cache_transparent r w o c1 x1 c1' H1 Hr Ho E1) as G1. pose proof (cache_transparent r w o c2 x2 c2' H2 Hr Ho E2) as G2. congruence. Qed.
  (** C49: where tracing without a cache gives an output in a module without uses of match contents, tracing with a cache does *)
  Theorem cache_total r w o c x : session cfg t c -> region_of t r -> owns r o -> no_match_content t -> gammas_branch t -> ~ is_match_content t o -> trace_output u t w o = Done x -> exists c', trace cfg t w o c = Done (x, c').
  Proof using Hwf Hshape.
    intros Hs Hr Ho H1 H2 H3 Hu. destruct (trace_total cfg t Hwf Hshape r w o c Hs Hr Ho H1 H2 H3) as (y & c' & E). pose proof (cache_transparent r w o c y c' Hs Hr Ho E) as G. rewrite Hu in G. injection G as <-. eauto.
  Qed.
  Lemma traced_fix r w o c x c' : session cfg t c -> region_of t r -> owns r o -> trace cfg t w o c = Done (x, c') -> exists F c0, trace_step u t (trace_fuel u t F) w x c0 = Done (x, c0).
  Proof using Hwf Hshape.
    intros Hs Hr Ho Ht. destruct (trace_fits cfg t Hwf _ w o c x c' (session_cinv c Hs) Ht) as [_ [F HF]]. specialize (HF F ltac:(done)). apply trace_fix in HF as (F' & c0 & E). exists F', c0.
    pose proof (plain_step u t eq_refl _ (plain_trace u t eq_refl F') w x c0 c0) as P. rewrite E in P. injection P as P. rewrite E, P. done.
  Qed.
  (** C50: tracing goes on as long as there is something to look through *)
  Theorem trace_stops r w o c x c' y : session cfg t c -> region_of t r -> owns r o -> trace cfg t w o c = Done (x, c') ->
    ~ passes_on t (interproc cfg) (enter_phi cfg) (llvm cfg) (loaded cfg) (barrier cfg) w x y.
  Proof using Hwf Hshape. intros Hs Hr Ho Ht. destruct (traced_fix r w o c x c' Hs Hr Ho Ht) as (F & c0 & E). exact (step_stops u t Hwf eq_refl F w x c0 c0 y E). Qed.
  (** C50: tracing from where tracing ended ends there *)
  Theorem trace_idempotent r w o c x c' : session cfg t c -> region_of t r -> owns r o -> trace cfg t w o c = Done (x, c') -> trace_output u t w x = Done x.
  Proof using Hwf Hshape.
    intros Hs Hr Ho Ht. destruct (traced_fix r w o c x c' Hs Hr Ho Ht) as (F & c0 & E). pose proof (run_inv cfg t Hwf Hshape r o w c Hs Hr Ho) as H. rewrite Ht in H. destruct H as (r' & Hr' & Hx).
    assert (E' : trace_step u t (trace_fuel u t F) w x ∅ = Done (x, ∅)) by (by rewrite (plain_step u t eq_refl _ (plain_trace u t eq_refl F) w x c0 ∅), E).
    unfold trace_output. rewrite (fuel_enough u t Hwf Hshape ∅ w r' x (S F) x ∅); [done | constructor | done | done|]. cbn [trace_fuel]. rewrite E'. cbn [obind]. by rewrite decide_True.
  Qed.
  (** C50: without inter-procedural tracing functions are not left *)
  Theorem intra_procedural_stays r w o c x c' : session cfg t c -> region_of t r -> owns r o -> trace cfg t w o c = Done (x, c') -> interproc cfg = false ->
    forall V ctl content sem addr imp (e : env (V:=V)) st v, loads_keep_states sem t -> barriers_forward sem (barrier cfg) -> point ctl content sem addr imp t ((r, e) :: st) -> ev ctl content sem addr imp t e o v ->
    exists st0 r' e' st', (r, e) :: st = st0 ++ (r', e') :: st' /\ Forall (fun f => branch_or_loop t f.1) st0 /\ owns r' x /\ ev ctl content sem addr imp t e' x v.
  Proof using Hwf Hshape.
    intros Hs Hr Ho Ht Hi V ctl content sem addr imp e st v Hl Hb Hp Hv.
    pose proof (trace_inv ctl content sem addr imp cfg t Hwf ltac:(done) Hb Hshape r o w c Hr Ho (session_inv _ _ _ _ _ cfg t Hwf ltac:(done) Hb Hshape c Hs)) as H. rewrite Ht in H. destruct H as (_ & Hm & _).
    destruct (Hm r e st v Hp Ho Hv) as (r' & e' & st' & G1 & G2 & G3 & _). rewrite Hi in G1. cbn [andb] in G1. inversion G1 as [st0 st1 E Hf| ]; subst; [|done]. exists st0, r', e', st'. auto.
  Qed.
End Cached.

(** A module that meets the hypotheses: a function whose loop keeps its first variable through a gamma and an IO barrier before the loop *)
Module Ex.
  Definition is_barrier (op : nat) : bool := bool_decide (op = 7).
  Definition branch (c a : oid) : region := Region [c; a] [a] [].
  Definition body : region := Region [10; 11] [15; 14; 16]
    [Node 3 (Simple 5) [11] [13] []; Node 4 Gamma [13; 10] [14] [branch 40 41; branch 42 43]; Node 5 (Simple 5) [11] [15] []; Node 6 (Simple 6) [11] [16] []].
  Definition fn : region := Region [1; 2] [22] [Node 1 (Simple 7) [1] [3] []; Node 2 Theta [3; 2] [20; 21] [body]; Node 7 (Simple 6) [20] [22] []].
  Definition t : region := Region [] [30] [Node 0 (Lambda 2) [] [30] [fn]].
  (* 5: is it not 0; 6: subtract 1; 7: the barrier *)
  Definition sem (op : nat) (vs : list nat) : option (list nat) :=
    match op, vs with 5, [x] => Some [Nat.min x 1] | 6, [x] => Some [x - 1] | 7, x :: _ => Some [x] | _, _ => None end.
  Lemma t_wf : wf t.
  Proof. split; [|split]; [| by apply (bool_decide_eq_true_1 _) | by apply (bool_decide_eq_true_1 _)]. cbn. repeat (split || constructor || eexists || done || set_solver). Qed.
  Lemma in_t (P : node -> Prop) : Forall P (nodes_of t) -> forall r n, region_of t r -> n ∈ rnodes r -> P n.
  Proof. intros H r n Hr Hn. apply reg_region_of in Hr. rewrite Forall_forall in H. apply H. by eapply reg_nodes_of. Qed.
  Lemma barrier_shape : barriers_have_operands t is_barrier.
  Proof.
    intros r n op Hr Hn Hk Hb. apply bool_decide_eq_true_1 in Hb as ->. revert Hk. pattern n. revert r n Hr Hn. apply in_t. cbn. repeat constructor; cbn; done.
  Qed.
  Lemma no_mc : no_match_content t.
  Proof.
    intros r n s x Hr Hn Hk Hs Hx. revert s x Hk Hs Hx. pattern n. revert r n Hr Hn. apply in_t. cbn. repeat (apply List.Forall_cons; [|]); [..|apply List.Forall_nil]; cbn; try done.
    all: intros s x _ Hs Hx; apply elem_of_cons in Hs as [->|[->|Hs%elem_of_nil]%elem_of_cons]; [| |done]; injection Hx as <-; split; [|by intros n' H%elem_of_nil| |by intros n' H%elem_of_nil].
    all: by apply (bool_decide_eq_true_1 _).
  Qed.
  Lemma branches : gammas_branch t.
  Proof. intros r n Hr Hn. pattern n. revert r n Hr Hn. apply in_t. cbn. repeat constructor; cbn; done. Qed.
  Lemma fn_region : region_of t fn.
  Proof. eapply ro_sub; [constructor | left | left]. Qed.
  Lemma body_region : region_of t body.
  Proof. eapply ro_sub; [exact fn_region | right; left | left]. Qed.
  (* the loop variable 20 comes from function argument 1: through the loop, whose variable is kept by the gamma, and the barrier *)
  Example traced : trace_output (llvm_default is_barrier) t None 20 = Done 1 /\ trace_output intra_procedural t None 20 = Done 3 /\ trace_output (llvm_default is_barrier) t None 21 = Done 21 /\
    trace_output (llvm_default is_barrier) t None 41 = Done 1 /\ trace_output (llvm_default is_barrier) t (Some (2, 0)) 41 = Done 10.
  Proof. by vm_compute. Qed.
  (* a tracer with a cache that has been used: the second tracing uses what the first one found out *)
  Definition cached : config := Config true true true true true true is_barrier.
  Definition used : gmap nat (option nat) := <[20 := Some 3]> (<[14 := Some 10]> ∅).
  Example cache_used : trace cached t None 20 ∅ = Done (1, used) /\ trace cached t (Some (2, 0)) 41 used = Done (10, used) /\
    trace cached t None 41 used = Done (1, used).
  Proof. by vm_compute. Qed.
  Lemma session_used : session cached t used.
  Proof. eapply (session_trace _ _ None 20 ∅ 1); [constructor | exists fn; split; [exact fn_region|]; right; exists (Node 2 Theta [3; 2] [20; 21] [body]); split; [right; left | left] | apply cache_used]. Qed.
  (* an execution that is at the second iteration of the loop, where the loop variable, and with it the argument of the branch, has the value 9 of the function argument *)
  Local Notation ex_point := (point Some (fun x => x) sem (fun x => x) (fun x => x) t).
  Local Notation ex_ev := (ev Some (fun x => x) sem (fun x => x) (fun x => x) t).
  Lemma at_fn : ex_point [(fn, bind [(1, 9); (2, 2)]); (t, emp)].
  Proof. apply (p_lambda _ _ _ _ _ _ t emp [] (Node 0 (Lambda 2) [] [30] [fn]) 2 fn [9; 2]); [constructor | left | done | done]. Qed.
  Lemma at_body : ex_point [(body, bind [(10, 9); (11, 1)]); (fn, bind [(1, 9); (2, 2)]); (t, emp)].
  Proof.
    apply (p_again _ _ _ _ _ _ fn (bind [(1, 9); (2, 2)]) [(t, emp)] (Node 2 Theta [3; 2] [20; 21] [body]) body (bind [(10, 9); (11, 2)]) 15 [14; 16] 1 [9; 1]); [|right; left|done|done|done|apply (run_ev _ _ _ _ _ _ 20); by vm_compute|done|].
    - apply (p_theta _ _ _ _ _ _ fn _ [(t, emp)] (Node 2 Theta [3; 2] [20; 21] [body]) body [9; 2]); [apply at_fn | right; left | done | done|]. repeat constructor; apply (run_ev _ _ _ _ _ _ 20); by vm_compute.
    - repeat constructor; apply (run_ev _ _ _ _ _ _ 20); by vm_compute.
  Qed.
  Example sound_applies : (exists v, ex_ev (bind [(10, 9); (11, 1)]) 14 v) /\
    comes_from Some (fun x => x) sem (fun x => x) (fun x => x) t true true None [(body, bind [(10, 9); (11, 1)]); (fn, bind [(1, 9); (2, 2)]); (t, emp)] 14 1.
  Proof.
    split; [exists 9; apply (run_ev _ _ _ _ _ _ 20); by vm_compute|].
    assert (Ht : trace cached t None 14 used = Done (1, used)) by (by vm_compute).
    refine (proj1 (trace_sound Some (fun x => x) sem (fun x => x) (fun x => x) cached t t_wf _ _ barrier_shape body None None 14 _ 1 _ _ session_used body_region _ Ht I at_body)).
    - intros _ o id op k ins vs ws Hd. cbn in Hd. repeat (apply elem_of_cons in Hd as [Hd|Hd]; [discriminate Hd|]). by apply elem_of_nil in Hd.
    - intros op vs ws Hb%bool_decide_eq_true_1. subst op. destruct vs; [done|]. by intros [= <-].
    - right. exists (Node 4 Gamma [13; 10] [14] [branch 40 41; branch 42 43]). split; [right; left | left].
  Qed.
  Example total_applies : exists x c', trace cached t None 20 used = Done (x, c').
  Proof.
    apply (trace_total cached t t_wf barrier_shape fn); [exact session_used | exact fn_region | right; exists (Node 2 Theta [3; 2] [20; 21] [body]); split; [right; left | left] | exact no_mc | exact branches|].
    intros (n & b & s & (r & Hr & Hn & Hs & Hx) & Hk). assert (Hin : s ∈ nsubs n) by (by eapply elem_of_list_lookup_2). clear Hs. revert s Hx Hin. revert Hk. pattern n. revert r n Hr Hn. apply in_t. cbn. repeat (apply List.Forall_cons; [|]); [..|apply List.Forall_nil]; cbn; try done.
    all: intros _ s Hx Hin; apply elem_of_cons in Hin as [->|[->|Hs%elem_of_nil]%elem_of_cons]; [done|done|done].
  Qed.
  (* tracing the match content argument of a branch fails the assertion of mapBranchArgumentToInput *)
  Example match_content_fails : trace_output intra_procedural t None 40 = Failed.
  Proof. by vm_compute. Qed.
End Ex.
