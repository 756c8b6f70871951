(** The inclusion-constraint solver of the Andersen analysis. *)
From stdpp Require Import base list list_numbers fin_sets gmap relations.
From Coq Require Import Lia.
From Verif.Andersen Require Import Model Spec Proofs Proofs2 Proofs3 Proofs4 Proofs5.

(** ** the invariant: every sequence of API calls establishes it *)
Inductive built : pos -> Prop :=
| b_empty : built empty_pos
| b_object s k can : built s -> built (add_object k can s)
| b_import s can : built s -> built (add_import can s)
| b_pe s i : built s -> i < npo s -> built (mark_pe i s).1
| b_ext s i : built s -> i < npo s -> built (mark_ext i s).1
| b_sas s i : built s -> i < npo s -> built (mark_sas i s).1
| b_las s i : built s -> i < npo s -> built (mark_las i s).1
| b_escaped s i : built s -> i < npo s -> kindof s i <> Register -> built (mark_escaped i s).1
| b_pointee s p y : built s -> p < npo s -> y < npo s -> kindof s y <> Register -> built (add_pointee p y s).1
| b_unify s a b : built s -> a < npo s -> b < npo s -> built (unify a b s).1
| b_remove s i : built s -> i < npo s -> built (remove_all_pointees i s).
Theorem pointer_object_set_wf s : built s -> wf s.
Proof.
  induction 1; auto using wf_empty, wf_add_object, wf_add_import, wf_mark_pe, wf_mark_ext, wf_mark_sas, wf_mark_las,
    wf_mark_escaped, wf_add_pointee, wf_unify, wf_remove_all.
Qed.

(** ** GetUnificationRoot: the loop terminates, and halving the path changes no root *)
Theorem unification_root_path_halving s i : wf s -> i < npo s ->
  exists fuel p', find_halving fuel (par s) i = Some (root s i, p') /\
    forall j, j < npo s -> p' j < npo s /\ root (set_uf p' (rank s) s) j = root s j.
Proof.
  intros Wf Hi. pose proof (wf_forest s Wf) as F.
  destruct (find_halving_total (npo s) (rank s) (par s) i F Hi) as (r & p' & E).
  destruct (find_halving_ok _ _ _ _ _ _ _ F Hi E) as (-> & F' & R).
  eexists _, p'. split; [exact E|]. intros j Hj. split; [apply F'; auto|]. apply (R j Hj).
Qed.
(** two pointer objects unified share their root, points-to set and flags, and nothing else changes *)
Theorem unify_merges s a b : wf s -> a < npo s -> b < npo s ->
  let s' := (unify a b s).1 in
  let both x := root s x = root s a \/ root s x = root s b in
  npo s' = npo s /\ (unify a b s).2 = root s' a /\
  forall x, x < npo s ->
    (forall y, y < npo s -> root s' x = root s' y <-> root s x = root s y \/ (both x /\ both y)) /\
    (forall y, Sol (observe s') x y <-> Sol (observe s) x y \/ (both x /\ (Sol (observe s) a y \/ Sol (observe s) b y))) /\
    (Ext (observe s') x <-> Ext (observe s) x \/ (both x /\ (Ext (observe s) a \/ Ext (observe s) b))) /\
    (Pe (observe s') x <-> Pe (observe s) x \/ (both x /\ (Pe (observe s) a \/ Pe (observe s) b))) /\
    (Esc (observe s') x <-> Esc (observe s) x).
Proof.
  intros Wf Ha Hb s' both. split; [apply unify_npo|]. split.
  { unfold s'. destruct (unify a b s) as [t r] eqn:E. cbn [fst snd].
    destruct (unify_spec s a b t r Wf Ha Hb E) as [(e & -> & ->)|(ne & _ & old & U & C)]; auto.
    rewrite (un_root _ _ _ _ U a Ha). destruct (decide _) as [e|e]; auto. destruct C as [[-> ->]|[-> ->]]; congruence. }
  intros x Hx. split; [|split; [|split; [|split]]].
  - intros y Hy. apply unify_same; auto.
  - intros y. apply unify_sol; auto.
  - cbn [Ext observe]. rewrite !ext_iff. apply unify_ext; auto.
  - cbn [Pe observe]. rewrite !pe_iff. apply unify_pe; auto.
  - cbn [Esc observe]. rewrite !esc_iff. unfold s'. rewrite unify_esc. tauto.
Qed.

Section Naive.
  Context (ord : forall A : Type, nat -> list A -> list A) (ord_perm : forall A k (l : list A), ord A k l ≡ₚ l).

  (** SolveNaively terminates, within a number of iterations given by the number of facts *)
  Theorem naive_terminates s G cs : wf s -> wf_prog (npo s) (kindof s) G -> (forall c, c ∈ cs -> cstr_in (npo s) c) ->
    exists s' k, solve_naively ord G (S (3 * npo s + npo s * npo s)) cs s = Some (s', k).
  Proof using ord_perm.
    intros Wf WG HC. apply (naive_total ord ord_perm s G WG cs HC); [apply W_self; auto|lia].
  Qed.
  (** its result is a solution, and the least one, whatever the order of iteration *)
  Theorem naive_least_solution s G cs fuel s' k : wf s -> wf_prog (npo s) (kindof s) G -> (forall c, c ∈ cs -> cstr_in (npo s) c) ->
    solve_naively ord G fuel cs s = Some (s', k) -> least_solution G s cs (observe s').
  Proof using ord_perm. intros Wf WG HC E. exact (naive_least ord ord_perm s G WG cs HC fuel s' k Wf E). Qed.
  (** solving neither creates objects nor unifies, keeps the invariant, and only adds *)
  Theorem naive_frame s G cs fuel s' k : wf s -> wf_prog (npo s) (kindof s) G -> (forall c, c ∈ cs -> cstr_in (npo s) c) ->
    solve_naively ord G fuel cs s = Some (s', k) ->
    wf s' /\ npo s' = npo s /\ kindof s' = kindof s /\ (forall i, root s' i = root s i).
  Proof using ord_perm.
    intros Wf WG HC E. destruct (naive_result ord ord_perm s G WG cs HC fuel s s' k (W_self s Wf) (le_refl s) E) as (W' & _).
    split; [apply W'|]. split; [apply W_npo; auto|]. split; [apply W_kind; auto|]. intros i. apply W_root; auto.
  Qed.
End Naive.

Lemma least_same G s cs cs' T U : (forall c, c ∈ cs <-> c ∈ cs') -> least_solution G s cs T -> least_solution G s cs' U ->
  at_most (npo s) T U /\ at_most (npo s) U T.
Proof.
  intros E [H1 H2] [H3 H4].
  assert (S1 : solution G s cs' T) by (destruct H1; split; auto; intros; apply so_constraints; apply E; auto).
  assert (S2 : solution G s cs U) by (destruct H3; split; auto; intros; apply so_constraints; apply E; auto).
  auto.
Qed.
Lemma at_most_same n T U : at_most n T U -> at_most n U T -> same_sol n T U.
Proof. intros [] []. intros x Hx. repeat split; auto. Qed.

(** the result does not depend on the order of the constraints, on duplicates, nor on hash iteration order *)
Theorem naive_order_independent ord ord' G s cs cs' fuel fuel' s1 s2 k1 k2 :
  (forall A k (l : list A), ord A k l ≡ₚ l) -> (forall A k (l : list A), ord' A k l ≡ₚ l) ->
  wf s -> wf_prog (npo s) (kindof s) G -> (forall c, c ∈ cs -> cstr_in (npo s) c) -> (forall c, c ∈ cs <-> c ∈ cs') ->
  solve_naively ord G fuel cs s = Some (s1, k1) -> solve_naively ord' G fuel' cs' s = Some (s2, k2) ->
  identical_sol s1 s2 = true /\ forall x, x < npo s -> has_pe s1 x = has_pe s2 x.
Proof.
  intros O O' Wf WG HC E E1 E2.
  assert (HC' : forall c, c ∈ cs' -> cstr_in (npo s) c) by (intros c Hc; apply HC, E; auto).
  pose proof (naive_least_solution ord O s G cs _ _ _ Wf WG HC E1) as L1.
  pose proof (naive_least_solution ord' O' s G cs' _ _ _ Wf WG HC' E2) as L2.
  destruct (naive_frame ord O s G cs _ _ _ Wf WG HC E1) as (W1 & N1 & _).
  destruct (naive_frame ord' O' s G cs' _ _ _ Wf WG HC' E2) as (W2 & N2 & _).
  destruct (least_same _ _ _ _ _ _ E L1 L2) as [A B]. split.
  - apply identical_iff; auto. split; [congruence|]. rewrite N1. apply at_most_same; auto.
  - intros x Hx. pose proof (am_pe _ _ _ A x Hx). pose proof (am_pe _ _ _ B x Hx). cbn [Pe observe] in *.
    destruct (has_pe s1 x), (has_pe s2 x); auto; symmetry; auto.
Qed.

(** HasIdenticalSolAs decides equality of the observable solutions *)
Theorem has_identical_sol_spec s t : wf s -> wf t ->
  identical_sol s t = true <-> npo s = npo t /\ same_sol (npo s) (observe s) (observe t).
Proof. apply identical_iff. Qed.

(** ** unification and solutions *)
(** unifying before solving can only enlarge the solution: it is never unsound *)
Theorem unify_sound G s cs a b T : wf s -> a < npo s -> b < npo s ->
  solution G (unify a b s).1 cs T -> solution G s cs T.
Proof. intros Wf Ha Hb. apply unify_over; auto. Qed.
(** if the least solution already agrees on the two objects, nothing is lost *)
Theorem unify_exact_if_equal G s cs a b T U : wf s -> a < npo s -> b < npo s ->
  least_solution G s cs T -> (forall y, Sol T a y <-> Sol T b y) -> (Ext T a <-> Ext T b) ->
  least_solution G (unify a b s).1 cs U -> same_sol (npo s) T U.
Proof.
  intros Wf Ha Hb [HT LT] ES EX [HU LU].
  pose proof (LT U (unify_over G s Wf a b Ha Hb cs U HU)) as A.
  pose proof (LU _ (unify_exact G s Wf a b Ha Hb cs T HT ES EX)) as B. rewrite unify_npo in B.
  destruct A as [A1 A2 A3 A4], B as [B1 B2 B3 B4]. cbn in *. intros x Hx. repeat split; auto.
Qed.
(** in particular on a cycle of superset constraints *)
Theorem unify_exact_on_cycle G s cs a b T U : wf s -> a < npo s -> b < npo s ->
  rtc (fun x y => CSuper y x ∈ cs) a b -> rtc (fun x y => CSuper y x ∈ cs) b a ->
  least_solution G s cs T -> least_solution G (unify a b s).1 cs U -> same_sol (npo s) T U.
Proof.
  intros Wf Ha Hb R1 R2 HT HU. pose proof (so_constraints _ _ _ _ (proj1 HT)) as C.
  destruct (cycle_includes _ _ _ _ _ _ C R1) as [A1 A2], (cycle_includes _ _ _ _ _ _ C R2) as [B1 B2].
  refine (unify_exact_if_equal G s cs a b T U Wf Ha Hb HT _ _ HU); [intros y|]; split; auto.
Qed.

(** ** NormalizeConstraints *)
Theorem normalize_same_solutions G s cs T : wf s -> (forall c, c ∈ cs -> cstr_in (npo s) c) ->
  solution G s cs T <-> solution G s (normalize s cs).1 T.
Proof. intros Wf HC. apply normalize_solution; auto. Qed.
Theorem normalize_normal s cs : wf s -> (forall c, c ∈ cs -> cstr_in (npo s) c) ->
  let '(cs', reduction) := normalize s cs in
  NoDup cs' /\ length cs' + reduction = length cs /\
  forall c, c ∈ cs' -> cstr_in (npo s) c /\
    match c with
    | CSuper a b => a <> b /\ root s a = a /\ root s b = b
    | CStore a b | CLoad a b => root s a = a /\ root s b = b
    | CCall p _ => root s p = p
    end.
Proof.
  intros Wf HC. unfold normalize. destruct (normalize_go_spec s cs [] NoDup_nil_2) as [A B].
  pose proof (normalize_go_length s cs []) as L. cbn in L. split; [auto|]. split; [lia|].
  intros c Hc. apply B in Hc as [H|(c0 & H & E)]; [inversion H|]. specialize (HC c0 H).
  destruct c0 as [a b|a b|a b|p n]; cbn [cstr_in normalize_one] in HC, E; [destruct (decide _) as [|ne]; [discriminate|]|..]; injection E as <-; cbn [cstr_in].
  - destruct HC. split; [split; apply root_lt; auto|]. split; [auto|]. split; apply root_root; auto.
  - destruct HC. split; [split; apply root_lt; auto|]. split; apply root_root; auto.
  - destruct HC. split; [split; apply root_lt; auto|]. split; apply root_root; auto.
  - split; [apply root_lt; auto|apply root_root; auto].
Qed.

(** ** loops over a points-to set *)
(** if no pointer object written by the body shares the points-to set that is iterated over,
    the body leaves that set alone *)
Definition loop_body (ord : forall A : Type, nat -> list A -> list A) (G : prog) (c : cstr) (x : nat) : op :=
  match c with
  | CSuper _ _ => nop
  | CStore _ v => make_superset ord x v
  | CLoad v _ => make_superset ord v x
  | CCall _ n => fun s => match kindof s x with
                          | ImportMO => calling_external G n s | FunctionMO => calling_lambda ord G n x s | _ => (s, false) end
  end.
(** these are the loop bodies of the model *)
Lemma apply_loops ord G c p : iterated c = Some p ->
  exists rest, apply ord G c = (forset ord (fun s => pset s p) (loop_body ord G c) ;+ ifop (fun s => is_ext s p) rest).
Proof. destruct c; cbn; intros [= <-]; eauto. Qed.
Theorem iterated_set_unchanged ord G s c p x : (forall A k (l : list A), ord A k l ≡ₚ l) ->
  wf s -> wf_prog (npo s) (kindof s) G -> cstr_in (npo s) c -> iterated c = Some p -> x ∈ pset s p ->
  (forall w, w ∈ written G (kindof s) c x -> root s w <> root s p) ->
  pset (loop_body ord G c x s).1 p = pset s p.
Proof.
  intros O Wf WG Hc Hi Hx HN. destruct (loop_body ord G c x s) as [s' b] eqn:E. cbn [fst].
  destruct (wf_pts s Wf (root s p) x Hx) as [Vx _].
  assert (OK : op_ok s (loop_body ord G c x)).
  { destruct c; cbn in Hc |- *; [apply ok_nop|apply ok_make_superset; tauto|apply ok_make_superset; tauto|apply (ok_call_body ord O s G WG)]. }
  destruct (OK s s' b (W_self s Wf) E) as (W' & _).
  unfold pset. rewrite (W_root s s' p W'). change (same_at (root s p) (pts s (root s p)) s').
  assert (K : keeps s (same_at (root s p) (pts s (root s p))) (loop_body ord G c x)); [|apply (K s s' b (W_self s Wf) eq_refl E)].
  destruct c as [a v|q v|v q|q n]; cbn in Hc, Hi, HN |- *; [discriminate|..]; injection Hi as ->.
  - apply sa_make_superset; auto; [tauto|]. apply HN. left.
  - apply sa_make_superset; auto; [tauto|]. apply HN. left.
  - intros t t' f HWt Ht Et. rewrite (W_kind s t HWt) in Et. destruct (kindof s x) eqn:Kx; try (injection Et as <- <-; auto; fail).
    + revert t t' f HWt Ht Et. apply sa_internal; auto; intros i Hi; apply HN, elem_of_app; [left|right]; apply elem_of_list_omap; exists (Some i); auto.
    + revert t t' f HWt Ht Et. apply sa_external; auto.
Qed.

(** ** a concrete module, that meets the hypotheses of the theorems above.
    a function f with a function pointer parameter p, { p(&a); *e = &a; l = *e; }, with an alloca a (0), the function f (1), its
    parameter p (2) that points to f, the register q = &a (3), the import E (4), e = &E (5), l (6). *)
Definition ex_s : pos :=
  (add_pointee 5 4 (add_pointee 3 0 (add_pointee 2 1
    (add_object Register true (add_object Register true (add_import true (add_object Register true (add_object Register true
      (add_object FunctionMO false (add_object AllocaMO true empty_pos)))))))).1).1).1.
Definition ex_G : prog :=
  mkprog [1] (fun f => if f =? 1 then [Some 2] else []) (fun _ => []) (fun _ => [Some 3]) (fun _ => []).
Definition ex_cs : list cstr := [CLoad 6 5; CCall 2 0; CStore 5 3; CSuper 6 2; CSuper 2 6].
Definition id_ord (A : Type) (k : nat) (l : list A) : list A := l.

Lemma ex_built : built ex_s.
Proof. unfold ex_s. repeat (first [apply b_pointee | apply b_object | apply b_import | apply b_empty]); vm_compute; try discriminate; repeat constructor. Qed.
Lemma ex_prog : wf_prog (npo ex_s) (kindof ex_s) ex_G.
Proof.
  change (npo ex_s) with 7. split.
  - intros f i. cbn. destruct (f =? 1); intros H; [apply elem_of_list_singleton in H; injection H as ->; lia|inversion H].
  - intros f i H. inversion H.
  - intros c i H. apply elem_of_list_singleton in H. injection H as ->. lia.
  - intros c i H. inversion H.
  - intros f Hf. change (functions ex_G) with [1]. rewrite elem_of_list_singleton. do 7 (destruct f as [|f]; [vm_compute; split; [discriminate || auto|try discriminate; auto]|]). lia.
  - intros f H. apply elem_of_list_singleton in H as ->. lia.
Qed.
Lemma ex_in c : c ∈ ex_cs -> cstr_in (npo ex_s) c.
Proof. change (npo ex_s) with 7. unfold ex_cs. intros H. repeat (apply elem_of_cons in H as [->|H]; [cbn; lia|]). inversion H. Qed.
(** the solver's result: the alloca escapes, the loaded register may point to it,
    and the parameter got the argument of the indirect recursive call *)
Example ex_result :
  match solve_naively id_ord ex_G 10 ex_cs ex_s with
  | Some (s', k) => map (fun x => map (is_pointing_to s' x) (seq 0 7)) [2; 3; 6] =
      [[true; true; false; false; true; false; false]; [true; false; false; false; false; false; false]; [true; true; false; false; true; false; false]]
      /\ map (has_escaped s') (seq 0 7) = [true; false; false; false; true; false; false] /\ k = 3
  | None => False
  end.
Proof. vm_compute. auto. Qed.
Example ex_unify_cycle : rtc (fun x y => CSuper y x ∈ ex_cs) 6 2 /\ rtc (fun x y => CSuper y x ∈ ex_cs) 2 6.
Proof. split; apply rtc_once; unfold ex_cs; rewrite !elem_of_cons; tauto. Qed.

(** FunctionCallConstraint::ApplyDirectly iterates over the points-to set of the function pointer and,
    in the body, adds to the points-to sets of the parameters of the callee. If a function calls its own
    parameter and may be passed itself, that is the very set being iterated over: the C++ loop then uses
    iterators of a std::unordered_set it has inserted into. *)
Theorem iterated_set_unchanged_refuted : exists s G c p x,
  built s /\ wf_prog (npo s) (kindof s) G /\ cstr_in (npo s) c /\ iterated c = Some p /\ x ∈ pset s p /\
  forall ord, (forall A k (l : list A), ord A k l ≡ₚ l) -> pset (loop_body ord G c x s).1 p <> pset s p.
Proof.
  exists ex_s, ex_G, (CCall 2 0), 2, 1. split; [apply ex_built|]. split; [apply ex_prog|]. split; [vm_compute; lia|]. split; [reflexivity|].
  split; [apply (bool_decide_unpack _); vm_compute; exact Logic.I|].
  intros ord O E.
  assert (A : 0 ∉ pset ex_s 2) by (apply (bool_decide_unpack _); vm_compute; exact Logic.I). apply A. rewrite <- E.
  cbn [loop_body]. change (kindof ex_s 1) with FunctionMO. cbn iota.
  unfold calling_lambda. change (forpairs (couts ex_G 0) (fresults ex_G 1) (make_superset ord)) with nop.
  change (forpairs (cargs ex_G 0) (fargs ex_G 1) (λ i j : nat, make_superset ord j i)) with (make_superset ord 2 3 ;+ nop).
  unfold seqop, nop.
  assert (EO : ord nat (tick ex_s) (elements (pts ex_s 3)) = [0]).
  { apply Permutation_singleton_r. etrans; [apply O|]. vm_compute. reflexivity. }
  unfold make_superset. change (root ex_s 2) with 2. change (root ex_s 3) with 3. rewrite decide_False by lia.
  unfold seqop, forset. rewrite EO. apply (bool_decide_unpack _). vm_compute. exact Logic.I.
Qed.
