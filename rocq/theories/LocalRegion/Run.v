(** Execution of regions whose nodes are listed in dependency order: an evaluation procedure that agrees with the semantics. Used to decide concrete cases. *)
From stdpp Require Import base list gmap.
From Coq Require Import ZArith.
From Verif.LocalRegion Require Import Model Spec Facts.

Notation env := (gmap nat val) (only parsing).
Fixpoint bind_all (e : env) (xs : list oid) (vs : list val) : option env :=
  match xs, vs with
  | [], [] => Some e
  | x :: xs, v :: vs => match e !! x with Some _ => None | None => bind_all (<[x := v]> e) xs vs end
  | _, _ => None
  end.
Fixpoint run_nodes (ex : kind -> list val -> option (list val)) (l : list node) (e : env) : option env :=
  match l with
  | [] => Some e
  | Node k ins outs :: l => vs ← mapM (fun x => e !! x) ins; ws ← ex k vs; e ← bind_all e outs ws; run_nodes ex l e
  end.
Definition run_with (ex : kind -> list val -> option (list val)) (r : region) (vs : list val) : option (list val) :=
  e ← bind_all ∅ (rargs r) vs; e ← run_nodes ex (rnodes r) e; mapM (fun x => e !! x) (rres r).
Section Sem.
  Context (other : nat -> list val -> option (list val)) (content : val -> val).
  Fixpoint exec (fuel : nat) (k : kind) (vs : list val) : option (list val) :=
    match fuel with
    | 0 => None
    | S fuel =>
        match k with
        | KSimple o => op_sem other o vs
        | KGamma subs => match vs with VCtl k :: vs => s ← subs !! k; run_with (exec fuel) s (content (VCtl k) :: vs) | _ => None end
        | KTheta b => match run_with (exec fuel) b vs with Some (VCtl 0 :: ws) => Some ws | Some (VCtl 1 :: us) => exec fuel (KTheta b) us | _ => None end
        end
    end.
  Notation eval := (eval other content).
  Notation runs := (runs other content).
  Lemma bind_mono xs : forall e vs e', bind_all e xs vs = Some e' -> forall x v, e !! x = Some v -> e' !! x = Some v.
  Proof.
    induction xs as [|y xs IH]; intros e [|w vs] e' H x v Hx; cbn in H; try done; [by injection H as <-|]. destruct (e !! y) eqn:E; [done|]. eapply IH; [exact H|]. rewrite lookup_insert_ne; [done|]. intros ->. by rewrite E in Hx.
  Qed.
  Lemma bind_values xs : forall e vs e', bind_all e xs vs = Some e' -> mapM (fun x => e' !! x) xs = Some vs.
  Proof.
    induction xs as [|y xs IH]; intros e [|w vs] e' H; cbn in H; try done. destruct (e !! y) eqn:E; [done|]. cbn. rewrite (bind_mono _ _ _ _ H y w) by (by rewrite lookup_insert). cbn. by rewrite (IH _ _ _ H).
  Qed.
  Lemma bind_agrees (rho : nat -> val) xs : forall e vs e', bind_all e xs vs = Some e' -> (forall x v, e !! x = Some v -> rho x = v) -> map rho xs = vs -> forall x v, e' !! x = Some v -> rho x = v.
  Proof.
    induction xs as [|y xs IH]; intros e [|w vs] e' H He Em; cbn in H; try done; [by injection H as <-|]. destruct (e !! y) eqn:E; [done|]. injection Em as Ey Em. eapply IH; [exact H| |exact Em]. intros x v [[<- <-]|[_ Hx]]%lookup_insert_Some; [done | by apply He].
  Qed.
  Lemma values_agree (rho : nat -> val) (e : env) xs vs : (forall x v, e !! x = Some v -> rho x = v) -> mapM (fun x => e !! x) xs = Some vs -> map rho xs = vs.
  Proof. intros He. revert vs. induction xs as [|x xs IH]; intros vs H; cbn in H; [by injection H as <-|]. apply bind_Some in H as (v & Hv & H). apply bind_Some in H as (w & Hw & [= <-]). cbn. f_equal; [by apply He | by apply IH]. Qed.
  Lemma values_mono (e e' : env) xs vs : (forall x v, e !! x = Some v -> e' !! x = Some v) -> mapM (fun x => e !! x) xs = Some vs -> mapM (fun x => e' !! x) xs = Some vs.
  Proof. intros He. revert vs. induction xs as [|x xs IH]; intros vs H; cbn in H |- *; [done|]. apply bind_Some in H as (v & Hv & H). apply bind_Some in H as (w & Hw & [= <-]). rewrite (He _ _ Hv). cbn. by rewrite (IH _ Hw). Qed.
  Section Ex.
    Context (ex : kind -> list val -> option (list val)).
    Lemma nodes_mono l : forall e e', run_nodes ex l e = Some e' -> forall x v, e !! x = Some v -> e' !! x = Some v.
    Proof.
      induction l as [|[k ins outs] l IH]; intros e e' H x v Hx; cbn in H; [by injection H as <-|]. apply bind_Some in H as (vs & Hvs & H). apply bind_Some in H as (ws & Hws & H). apply bind_Some in H as (e1 & He1 & H). eapply IH; [exact H|]. by eapply bind_mono.
    Qed.
    Lemma nodes_hold l : (forall k vs ws, ex k vs = Some ws -> eval k vs ws) -> forall e e' rho, run_nodes ex l e = Some e' -> (forall x v, e' !! x = Some v -> rho x = v) -> hold other content rho l.
    Proof.
      intros Hex. induction l as [|[k ins outs] l IH]; intros e e' rho H He; [intros n Hn; by apply elem_of_nil in Hn|]. cbn in H. apply bind_Some in H as (vs & Hvs & H). apply bind_Some in H as (ws & Hws & H). apply bind_Some in H as (e1 & He1 & H). apply hold_cons. split; [|by eapply IH].
      unfold holds. cbn [nkind nins nouts].
      assert (E1 : map rho ins = vs). { eapply values_agree; [exact He|]. eapply values_mono; [|exact Hvs]. intros x v Hx. eapply nodes_mono; [exact H|]. by eapply bind_mono. }
      assert (E2 : map rho outs = ws). { eapply values_agree; [exact He|]. eapply values_mono; [|by eapply bind_values]. by eapply nodes_mono. }
      rewrite E1, E2. by apply Hex.
    Qed.
    Lemma nodes_agree l : (forall k vs ws ws', ex k vs = Some ws -> eval k vs ws' -> ws' = ws) -> forall e e' rho, run_nodes ex l e = Some e' -> (forall x v, e !! x = Some v -> rho x = v) -> hold other content rho l -> forall x v, e' !! x = Some v -> rho x = v.
    Proof.
      intros Hex. induction l as [|[k ins outs] l IH]; intros e e' rho H He Hh; cbn in H; [by injection H as <-|]. apply bind_Some in H as (vs & Hvs & H). apply bind_Some in H as (ws & Hws & H). apply bind_Some in H as (e1 & He1 & H). apply hold_cons in Hh as [Hn Hh].
      unfold holds in Hn. cbn [nkind nins nouts] in Hn. rewrite (values_agree _ _ _ _ He Hvs) in Hn. eapply IH; [exact H| |exact Hh]. eapply bind_agrees; [exact He1 | exact He|]. by eapply Hex.
    Qed.
    Lemma run_with_sound r vs ws : (forall k vs ws, ex k vs = Some ws -> eval k vs ws) -> run_with ex r vs = Some ws -> runs r vs ws.
    Proof.
      intros Hex H. unfold run_with in H. apply bind_Some in H as (e & He & H). apply bind_Some in H as (e' & He' & H). apply runs_iff. set (rho := fun x => match e' !! x with Some v => v | None => VAny 0 end). assert (Ha : forall x v, e' !! x = Some v -> rho x = v) by (intros x v Hx; unfold rho; by rewrite Hx). exists rho. split; [|split].
      - eapply values_agree; [exact Ha|]. eapply values_mono; [|by eapply bind_values]. by eapply nodes_mono.
      - by eapply nodes_hold.
      - by eapply values_agree.
    Qed.
    Lemma run_with_unique r vs ws ws' : (forall k vs ws ws', ex k vs = Some ws -> eval k vs ws' -> ws' = ws) -> run_with ex r vs = Some ws -> runs r vs ws' -> ws' = ws.
    Proof.
      intros Hex H Hr. unfold run_with in H. apply bind_Some in H as (e & He & H). apply bind_Some in H as (e' & He' & H). apply runs_iff in Hr as (rho & E1 & Hh & <-). eapply values_agree; [|exact H]. eapply nodes_agree; [exact Hex | exact He'| |exact Hh].
      eapply bind_agrees; [exact He| |exact E1]. intros x v Hx. by rewrite lookup_empty in Hx.
    Qed.
  End Ex.
  Theorem exec_sound fuel : forall k vs ws, exec fuel k vs = Some ws -> eval k vs ws.
  Proof.
    induction fuel as [|fuel IH]; [done|]. intros [o|subs|b] vs ws H; cbn [exec] in H.
    - by constructor.
    - destruct vs as [|[k|w z|n] vs]; try done. apply bind_Some in H as (s & Hs & H). econstructor; [exact Hs|]. by eapply run_with_sound.
    - destruct (run_with (exec fuel) b vs) as [[|[[|[|k]]|w z|n] us]|] eqn:E; try done; apply (run_with_sound _ _ _ _ IH) in E.
      + injection H as <-. constructor. by apply l_exit.
      + apply IH in H. inversion H as [| |b0 vs0 ws0 Hl]; subst. constructor. by eapply l_again.
  Qed.
  Theorem exec_unique fuel : forall k vs ws ws', exec fuel k vs = Some ws -> eval k vs ws' -> ws' = ws.
  Proof.
    induction fuel as [|fuel IH]; [done|]. intros [o|subs|b] vs ws ws' H He; cbn [exec] in H.
    - inversion He as [o0 vs0 ws0 Ho| |]; subst. rewrite H in Ho. by injection Ho.
    - destruct vs as [|[k|w z|n] vs]; try done. apply bind_Some in H as (s & Hs & H). inversion He as [|subs0 k0 r0 vs0 ws0 Hk Hr|]; subst. rewrite Hs in Hk. injection Hk as <-. by eapply run_with_unique.
    - inversion He as [| |b0 vs0 ws0 Hl]; subst. destruct (run_with (exec fuel) b vs) as [us0|] eqn:E; [|done].
      inversion Hl as [b1 vs1 ws1 Hr|b1 vs1 us1 ws1 Hr Hl']; subst; pose proof (run_with_unique _ _ _ _ _ IH E Hr) as Eu; subst us0; cbn in H.
      + by injection H.
      + eapply IH; [exact H|]. by constructor.
  Qed.
  Theorem run_sound fuel r vs ws : run_with (exec fuel) r vs = Some ws -> runs r vs ws.
  Proof. apply run_with_sound, exec_sound. Qed.
  Theorem run_unique fuel r vs ws ws' : run_with (exec fuel) r vs = Some ws -> runs r vs ws' -> ws' = ws.
  Proof. apply run_with_unique, exec_unique. Qed.
End Sem.
