(** Function inlining: the same is computed, the graph stays well-formed, and the transformation succeeds. *)
From stdpp Require Import base list gmap.
From Coq Require Import ZArith Lia.
From Verif.LocalRegion Require Import Model Spec Facts Run.
From Verif.Unswitch Require Import Model Spec Proofs1.
From Verif.Sinking Require Import Spec.
From Verif.Hoisting Require Import Model Spec Proofs1 Proofs2 Proofs3 Proofs4.
From Verif.Hoisting Require Properties.
From Verif.Inlining Require Import Model Spec Proofs1 Proofs2 Proofs3 Proofs4 Proofs5.
Open Scope nat_scope.

(** C99: the graph stays well-formed; the new arguments come after those that exist, nothing else changes at the interface *)
Theorem inline_well_formed bar ptr callee m w j r r' : deep r -> deep callee -> inline_call bar ptr callee m w j r = Some r' ->
  deep r' /\ (exists a, rargs r' = rargs r ++ a /\ length a = m) /\ length (rres r') = length (rres r).
Proof.
  intros Hd Hdc H. unfold inline_call in H. split; [|split].
  - eapply inline_deep; [|exact Hdc| |exact H]; [by apply add_args_deep|]. intros x Hx. apply elem_of_app. by right.
  - destruct (inline_shape _ _ _ _ _ _ _ _ H) as [E _]. exists (seq (region_bound r) m). by rewrite seq_length.
  - by destruct (inline_shape _ _ _ _ _ _ _ _ H) as [_ E].
Qed.
Lemma call_added r w s m : inside r w s -> forall j n, rnodes s !! j = Some n -> exists s', inside (add_args r (seq (region_bound r) m)) w s' /\ rnodes s' !! j = Some n.
Proof.
  intros H. destruct H as [r|r i k n0 s0 w s Hn Hs Hin]; intros j n Hj; [by exists (add_args r (seq (region_bound r) m)); split; [constructor|]|]. exists s. split; [|done]. by eapply inside_there.
Qed.
(** C99: a call whose operands and results fit the callee (call.hpp CheckFunctionInputType and so on) can be inlined, in whatever region it is *)
Theorem inline_succeeds bar ptr callee m w j r s id fn ops outs : deep callee -> in_order callee -> inside r w s -> rnodes s !! j = Some (Node (KSimple (OOther id)) (fn :: ops) outs) ->
  length (rargs callee) = length ops + m -> length (rres callee) = length outs -> 2 <= length ops -> is_Some (inline_call bar ptr callee m w j r).
Proof.
  intros Hdc Ho Hin Hj L1 L2 L3. unfold inline_call. destruct (call_added r w s m Hin j _ Hj) as (s' & Hin' & Hj'). eapply inline_total; [by apply deep_wf | done | exact Hin' | exact Hj' | by rewrite seq_length | done | done].
Qed.
Section Properties.
  Context (other : nat -> list val -> option (list val)) (content : val -> val).
  (** C98: whatever the caller computes, it computes after the call was inlined, and the other way round; its new arguments get the values of the callee's context variables *)
  Theorem inline_preserves bar ptr callee id cx w j r r' : deep r -> deep callee -> barrier other bar -> calls other content id callee cx -> call_at r w j id -> inline_call bar ptr callee (length cx) w j r = Some r' ->
    same_with other content cx r r'.
  Proof. intros Hd Hdc Hbar Hc Hcall H. by destruct (inline_call_same other content bar ptr callee id cx (deep_wf callee Hdc) Hbar Hc w j r r' Hd Hcall H) as [H1 _]. Qed.
  (** any number of calls, of whatever functions; cxs: the values of the arguments that were added *)
  Inductive inlined (bar : nat) : region -> list val -> region -> Prop :=
    | inlined_done r : inlined bar r [] r
    | inlined_step r ptr callee id cx w j r' cxs r'' : deep callee -> calls other content id callee cx -> call_at r w j id -> inline_call bar ptr callee (length cx) w j r = Some r' -> inlined bar r' cxs r'' -> inlined bar r (cx ++ cxs) r''.
  Theorem inlined_preserves bar r cxs r' : barrier other bar -> inlined bar r cxs r' -> deep r -> same_with other content cxs r r' /\ deep r'.
  Proof.
    intros Hbar H. induction H as [r|r ptr callee id cx w j r' cxs r'' Hdc Hc Hcall H _ IH]; intros Hd.
    - split; [|done]. intros vs ws. by rewrite app_nil_r.
    - destruct (inline_well_formed _ _ _ _ _ _ _ _ Hd Hdc H) as [Hd' _]. destruct (IH Hd') as [Hs Hd'']. split; [|done]. intros vs ws.
      rewrite (inline_preserves bar ptr callee id cx w j r r' Hd Hdc Hbar Hc Hcall H vs ws), (Hs (vs ++ cx) ws). by rewrite app_assoc.
  Qed.
  (** C98: so the calls of a function in which calls were inlined do what they did, and such a function can be inlined in turn (inlining.cpp goes through the functions in any order) *)
  Theorem inlined_callee bar id callee cx cxs callee' : barrier other bar -> deep callee -> calls other content id callee cx -> inlined bar callee cxs callee' -> calls other content id callee' (cx ++ cxs).
  Proof.
    intros Hbar Hd Hc H fv vs ws. destruct (inlined_preserves _ _ _ _ Hbar H Hd) as [Hs _]. rewrite (Hc fv vs ws), (Hs (vs ++ cx) ws). by rewrite app_assoc.
  Qed.
End Properties.

(** a loop with a call; the callee reads through a pointer and has a context variable *)
Definition callee : region := Region [0; 1; 2; 3] [Node (KSimple (OOther 1)) [0; 3] [4]] [4; 1; 2].
Definition body : region := Region [0; 1; 2; 3] [Node (KSimple (OOther 7)) [0; 1; 2; 3] [4; 5; 6]; Node (KSimple (OOther 9)) [4] [7]] [7; 0; 4; 5; 6].
Definition caller : region := Region [0; 1; 2; 3] [Node (KTheta body) [0; 1; 2; 3] [4; 5; 6; 7]] [5; 6; 7].
Definition functions (id : nat) (vs : list val) : option (list val) :=
  match id, vs with
  | 1, [VInt w a; VInt _ b] => Some [VInt w (a + b)]
  | 5, [v; _] => Some [v]
  | 7, [_; VInt w a; io; m] => Some [VInt w (a + 3); io; m]
  | 9, [VInt _ a] => Some [VCtl (if decide (a < 10)%Z then 1 else 0)]
  | _, _ => None
  end.
Definition pointer (p : nat) : bool := p =? 0.
Definition body' : region := Region [0; 1; 2; 3; 8] [Node (KSimple (OOther 9)) [10] [7]; Node (KSimple (OOther 5)) [1; 2] [9]; Node (KSimple (OOther 1)) [9; 8] [10]] [7; 0; 10; 2; 3; 8].
Example example_inlined : inline_call 5 pointer callee 1 [(0, 0)] 0 caller = Some (Region [0; 1; 2; 3; 8] [Node (KTheta body') [0; 1; 2; 3; 8] [4; 5; 6; 7; 9]] [5; 6; 7]).
Proof. vm_compute. reflexivity. Qed.
Example example_call : call_at caller [(0, 0)] 0 7.
Proof. exists body, 0, [1; 2; 3], [4; 5; 6]. split; [|done]. eapply inside_there; [done..|constructor]. Qed.
Example example_barrier : barrier functions 5.
Proof. by intros v io. Qed.
Example example_calls : calls functions (fun v => v) 7 callee [VInt 8 3].
Proof.
  intros fv vs ws. rewrite runs_iff. cbn [callee rargs rnodes rres map]. split.
  - intros H. cbn [functions] in H. destruct vs as [|[|w a|] [|io [|m [|? ?]]]]; try discriminate H. injection H as <-. exists (fun x => match x with 0 => VInt w a | 1 => io | 2 => m | 3 => VInt 8 3 | _ => VInt w (a + 3) end). split; [done|]. split; [|done].
    intros n Hn. apply elem_of_list_singleton in Hn as ->. by constructor.
  - intros (rho & E & Hh & <-). specialize (Hh _ (elem_of_list_here _ _)). unfold Spec.holds in Hh. cbn [nkind nins nouts map] in Hh. inversion Hh as [o us us' Ho| |]. subst o us us'. cbn [op_sem functions] in Ho.
    destruct vs as [|a [|io [|m [|? vs]]]]; cbn [app] in E; [done..| |]; [|injection E as _ _ _ E; by destruct vs]. injection E as E0 E1 E2 E3. rewrite E0, E3 in Ho. destruct a as [|w a|]; try discriminate Ho. injection Ho as Ho. cbn [functions]. by rewrite <- Ho, E1, E2.
Qed.
Example example_deep : deep caller /\ deep callee.
Proof.
  assert (H : deep body) by (apply Properties.simple_deep; [by apply Properties.wf_decide | by apply Properties.acyclic_decide | done]). split.
  - constructor; [by apply Properties.wf_decide | by apply Properties.acyclic_decide | |].
    + intros n Hn. by apply elem_of_list_singleton in Hn as ->.
    + intros n b Hn Hb. apply elem_of_list_singleton in Hn as ->. by apply elem_of_list_singleton in Hb as ->.
  - apply Properties.simple_deep; [by apply Properties.wf_decide | by apply Properties.acyclic_decide | done].
Qed.
Example example_in_order : in_order callee.
Proof.
  intros l1 n l2 x E Hx. destruct l1 as [|n1 [|n2 l1]]; cbn in E; [|discriminate E..]. injection E as <- _. left. cbn [nins callee rargs] in *. apply elem_of_list_In. apply elem_of_list_In in Hx. cbn in Hx |- *. tauto.
Qed.
