(** An executable check that a graph is valid, for examples. *)
From stdpp Require Import tactics relations base list list_numbers fin_sets gmap fin_maps.
From Verif.Construct Require Import Model Spec.
From Verif.Cfg Require Import Model Spec ProofsBase.

Definition is_tac (i : instr) : bool := match i with Tac _ => true | Phi _ _ => false end.
Definition ends_with_branch (b : block) : bool := match list.last (code b) with Some (Tac (BranchOn _)) => true | _ => false end.
Definition check_block (g : cfg) (n : nat) (b : block) : bool :=
  negb (bool_decide (succ b = [])) && (bool_decide (length (succ b) = 1) || ends_with_branch b) && forallb is_tac (split_phis (code b)).2 &&
  forallb (fun q => bool_decide (NoDup (fst <$> q.2)) && bool_decide (Forall (fun p => (p, n) ∈ edges g) (fst <$> q.2)) &&
                    bool_decide (Forall (fun e => e.2 = n -> e.1 ∈ fst <$> q.2) (edges g))) (split_phis (code b)).1.
Definition check (g : cfg) : bool :=
  bool_decide (blocks g !! entry = None) && bool_decide (blocks g !! exit = None) &&
  forallb (fun e => bool_decide (e.2 = exit) || bool_decide (is_Some (blocks g !! e.2))) (edges g) && forallb (fun p => check_block g p.1 p.2) (map_to_list (blocks g)).
Lemma check_valid g : check g = true -> valid g.
Proof.
  unfold check. rewrite !andb_true_iff, !bool_decide_eq_true, !forallb_forall. intros (((H1 & H2) & H3) & H4). split; [done| |].
  - intros n m He%elem_edges%elem_of_list_In. specialize (H3 _ He). apply orb_true_iff in H3 as [H3|H3]; apply bool_decide_eq_true in H3; [by left|by right].
  - intros n b Hb. assert (Hin : (n, b) ∈ map_to_list (blocks g)) by by apply elem_of_map_to_list. apply elem_of_list_In in Hin. specialize (H4 _ Hin). cbn in H4.
    unfold check_block in H4. rewrite !andb_true_iff, negb_true_iff, bool_decide_eq_false, !forallb_forall in H4. destruct H4 as (((G1 & G2) & G3) & G4).
    split; [done|]. split; [|split].
    + intros Hl. apply orb_true_iff in G2 as [G2|G2]; [by apply bool_decide_eq_true in G2|]. unfold ends_with_branch in G2. destruct (list.last (code b)) as [[|[]]|]; try done. eauto.
    + clear -G3. induction (split_phis (code b)).2 as [|i l IH]; [by exists []|]. destruct IH as (ts & Hts). { intros x Hx. apply G3. by right. }
      specialize (G3 i (or_introl eq_refl)). destruct i as [|x]; [done|]. exists (x :: ts). by rewrite plain_cons, Hts.
    + intros r ops Hin'. apply elem_of_list_In in Hin'. specialize (G4 _ Hin'). cbn in G4. rewrite !andb_true_iff, !bool_decide_eq_true, !Forall_forall in G4.
      destruct G4 as ((K1 & K2) & K3). split; [done|]. intros p. split; [intros Hp; apply elem_edges; by apply K2|]. intros He%elem_edges. by apply (K3 (p, n)).
Qed.
Lemma check_no_phis g : forallb (fun p => forallb is_tac (code p.2)) (map_to_list (blocks g)) = true -> no_phis g.
Proof.
  rewrite forallb_forall. intros H n b Hb. assert (Hin : (n, b) ∈ map_to_list (blocks g)) by by apply elem_of_map_to_list. apply elem_of_list_In in Hin. specialize (H _ Hin).
  cbn in H. rewrite forallb_forall in H. apply Forall_forall. intros i Hi. apply elem_of_list_In in Hi. specialize (H i Hi). destruct i as [|x]; [done|]. eauto.
Qed.
Definition check_unused (g : cfg) (s v : nat) : bool :=
  bool_decide (exit < s) && forallb (fun p => bool_decide (p.1 < s) && bool_decide (Forall (fun x => x < v) (code p.2 ≫= instr_vars))) (map_to_list (blocks g)).
Lemma check_unused_ok g s v : check_unused g s v = true -> unused g s v.
Proof.
  unfold check_unused. rewrite andb_true_iff, bool_decide_eq_true, forallb_forall. intros (H1 & H2).
  assert (H : forall n b, blocks g !! n = Some b -> n < s /\ Forall (fun x => x < v) (code b ≫= instr_vars)).
  { intros n b Hb. assert (Hin : (n, b) ∈ map_to_list (blocks g)) by by apply elem_of_map_to_list. apply elem_of_list_In in Hin. specialize (H2 _ Hin).
    cbn in H2. by rewrite andb_true_iff, !bool_decide_eq_true in H2. }
  split; [done| |].
  - intros n (b & Hb). by apply (H _ _ Hb).
  - intros n b i x Hb Hi Hx. destruct (H _ _ Hb) as (_ & Hall). rewrite Forall_forall in Hall. apply Hall. apply elem_of_list_bind. eauto.
Qed.

(** An interpreter, for examples *)
Section Interpreter.
  Context {V : Type} (ctl : V -> option nat) (sem : nat -> list V -> option (list V)) (truth : V -> bool).
  Notation store := (nat -> V).
  Definition do_tac (x : tac) (σ : store) : option store :=
    match x with
    | Assign l r => Some (upd l (σ r) σ)
    | Select p a b r => Some (upd r (if truth (σ p) then σ a else σ b) σ)
    | BranchOn p => Some σ
    | Op op ops res => xs ← sem op (map σ ops); if decide (length xs = length res) then Some (upd_all res xs σ) else None
    end.
  Fixpoint do_block (l : list tac) (σ : store) : option store := match l with [] => Some σ | x :: l => σ1 ← do_tac x σ; do_block l σ1 end.
  Definition do_code (prev : nat) (l : list instr) (σ : store) : option store :=
    vs ← mapM (fun p => operand prev p.2) (split_phis l).1; ts ← plain (split_phis l).2; do_block ts (upd_all (fst <$> (split_phis l).1) (map σ vs) σ).
  Definition do_goes (b : block) (σ : store) : option nat :=
    match succ b with [s] => Some s | ss => match list.last (code b) with Some (Tac (BranchOn p)) => i ← ctl (σ p); ss !! i | _ => None end end.
  Fixpoint do_runs (g : cfg) (fuel prev n : nat) (σ : store) : option store :=
    match fuel with
    | 0 => None
    | S fuel => if decide (n = exit) then Some σ else b ← blocks g !! n; σ1 ← do_code prev (code b) σ; m ← do_goes b σ1; do_runs g fuel n m σ1
    end.
  Lemma do_block_ok l σ σ' : do_block l σ = Some σ' -> exec_block sem truth l σ σ'.
  Proof using.
    revert σ. induction l as [|x l IH]; intros σ; cbn; [by intros [= ->]|]. intros (σ1 & H1 & H2)%bind_Some. exists σ1. split; [|by apply IH].
    destruct x; cbn in *; [by injection H1..|]. apply bind_Some in H1 as (xs & Hx & H1). case_decide; [|done]. injection H1 as <-. eauto.
  Qed.
  Lemma do_runs_ok g fuel prev n σ σ' : do_runs g fuel prev n σ = Some σ' -> runs ctl sem truth g prev n σ σ'.
  Proof using.
    revert prev n σ. induction fuel as [|fuel IH]; intros prev n σ; [done|]. cbn [do_runs]. case_decide as Hn; [subst; intros [= ->]; constructor|].
    intros (b & Hb & (σ1 & H1 & (m & Hm & H2)%bind_Some)%bind_Some)%bind_Some. eapply runs_block; [exact Hb| |  |apply IH; exact H2].
    - unfold do_code in H1. apply bind_Some in H1 as (vs & Hvs & (ts & Hts & H1)%bind_Some). exists vs, ts. split; [done|]. split; [done|]. by apply do_block_ok.
    - unfold do_goes, goes in *. destruct (succ b) as [|s [|s' ss]]; [| by injection Hm |].
      all: destruct (list.last (code b)) as [[|[]]|] eqn:E; try done; apply bind_Some in Hm as (i & Hi & Hm); eauto.
  Qed.
  Lemma do_executes g fuel σ (P : store -> bool) : (P <$> do_runs g fuel entry (start g) σ) = Some true -> exists σ', executes ctl sem truth g σ σ' /\ P σ' = true.
  Proof using. destruct (do_runs g fuel entry (start g) σ) as [σ'|] eqn:E; cbn; [|done]. intros [= H]. exists σ'. split; [|done]. by eapply do_runs_ok. Qed.
End Interpreter.
