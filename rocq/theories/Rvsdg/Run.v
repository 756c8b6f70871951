(** An evaluator, to compute values of concrete modules. *)
From stdpp Require Import base list list_numbers fin_sets gmap.
From Verif.Rvsdg Require Import Model Spec Sem Local.

Fixpoint iter {A B : Type} (next : A -> option (A + B)) (m : nat) (x : A) : option B :=
  match m with 0 => None | S m => r ← next x; match r with inl x' => iter next m x' | inr y => Some y end end.

Section Run.
  Context {V : Type} (ctl : V -> option nat) (content : V -> V) (sem : nat -> list V -> option (list V)) (addr imp : nat -> V).
  Local Notation ev := (ev ctl content sem addr imp).
  Local Notation benv := (list (nat * V)).
  Context (ds : list (oid * view)).
  Definition view_of (o : oid) : option view := snd <$> (snd <$> list_find (fun d => d.1 = o) ds).
  (** environments as association lists *)
  Definition look (e : benv) (a : oid) : option V := (list_to_map e : gmap nat V) !! a.
  Fixpoint run (fuel : nat) (e : benv) (o : oid) {struct fuel} : option V :=
    match fuel with
    | 0 => None
    | S fuel =>
        w ← view_of o;
        match w with
        | VSimple _ _ op k ins => vs ← mapM (run fuel e) ins; ws ← sem op vs; ws !! k
        | VGamma p brs => pv ← run fuel e p; b ← ctl pv; '(x, c, es) ← brs !! b; vs ← mapM (run fuel e) (es.*2 : list nat); run fuel ((c, content pv) :: zip es.*1 vs) x
        | VTheta pred post _ lvs =>
            vs ← mapM (run fuel e) (lvs.*1.*2 : list nat);
            iter (fun vs => pv ← run fuel (zip lvs.*1.*1 vs) pred; b ← ctl pv;
                 match b with
                 | 0 => inr <$> run fuel (zip lvs.*1.*1 vs) post
                 | 1 => inl <$> mapM (run fuel (zip lvs.*1.*1 vs)) (lvs.*2 : list nat)
                 | _ => None
                 end) fuel vs
        | VGammaArg _ | VThetaArg _ _ | VFunArg => look e o
        | VLambda id _ _ | VDelta id _ => Some (addr id)
        | VImport id => Some (imp id)
        | VCopy x => run fuel [] x
        end
    end.
End Run.

Lemma run_ev {V} (ctl : V -> option nat) content sem addr imp t fuel e o v : run ctl content sem addr imp (defs t) fuel e o = Some v -> ev ctl content sem addr imp t (bind e) o v.
Proof.
  revert e o v. induction fuel as [|fuel IH]; [done|]. intros e o v H. cbn [run] in H. apply bind_Some in H as (w & Hw & H).
  assert (Hin : (o, w) ∈ defs t).
  { unfold view_of in Hw. destruct (list_find _ _) as [[i [o' w']]|] eqn:E; [|done]. apply list_find_Some in E as (E1 & E2 & _). cbn in E2, Hw. injection Hw as ->. subst o'. by eapply elem_of_list_lookup_2. }
  assert (Hm : forall e (l : list nat) vs, mapM (run ctl content sem addr imp (defs t) fuel e) l = Some vs -> Forall2 (ev ctl content sem addr imp t (bind e)) l vs).
  { intros e' l vs Hl. apply mapM_Some in Hl. eapply Forall2_impl; [exact Hl|]. cbn. auto. }
  apply ev_fold. exists w. split; [done|]. destruct w as [id l op k ins | p brs | x | pred post inp lvs | out inp | id a r | | id r | x | id]; cbn [eqn].
  - apply bind_Some in H as (vs & Hvs & H). apply bind_Some in H as (ws & Hws & H). exists vs, ws. auto.
  - apply bind_Some in H as (pv & Hpv & H). apply bind_Some in H as (b & Hb & H). apply bind_Some in H as ([[x c] es] & Hx & H). apply bind_Some in H as (vs & Hvs & H).
    exists pv, b, x, c, es, vs. repeat split; auto.
  - exact H.
  - apply bind_Some in H as (vs & Hvs & H). exists vs. split; [auto|]. clear Hvs Hw. revert vs H. generalize fuel at 4. intros m. induction m as [|m IHm]; intros vs H; [done|].
    cbn [iter] in H. apply bind_Some in H as (z & Hz & H). apply bind_Some in Hz as (pv & Hpv & Hz). apply bind_Some in Hz as (b & Hb & Hz). destruct b as [|[|b]]; [| |done].
    + apply fmap_Some in Hz as (u & Hu & ->). injection H as ->. eapply loop_exit; [by apply IH | done | by apply IH].
    + apply fmap_Some in Hz as (vs' & Hvs' & ->). eapply loop_next; [by apply IH | done | by apply Hm | by apply IHm].
  - done.
  - congruence.
  - done.
  - congruence.
  - apply IH in H. eapply ev_env_mono; [|exact H]. intros a u Ha. done.
  - congruence.
Qed.
