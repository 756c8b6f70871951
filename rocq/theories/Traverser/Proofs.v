(** The tracker, on an abstract graph: edges [from -> to], where the node [to]
    waits for the node [from]; [None] is the boundary of the region. *)
From stdpp Require Import base list gmap.
From Verif.Region Require Import Model.
From Verif.Traverser Require Import Model.

Notation edges := (gmap nat (option nat * option nat)).
Definition st (t : tracker) (n : ptr) : tstate := (entry t n).1.
Definition ct (t : tracker) (n : ptr) : nat := (entry t n).2.
Definition active (t : tracker) (f : option ptr) : Prop := match f with None => True | Some m => st t m = Behind end.
Global Instance active_dec t f : Decision (active t f).
Proof. destruct f; simpl; apply _. Defined.
Definition deg (E : edges) (n : ptr) : nat := size (filter (fun kv => kv.2.2 = Some n) E).
Definition cnt (E : edges) (t : tracker) (n : ptr) : nat := size (filter (fun kv => kv.2.2 = Some n /\ active t kv.2.1) E).
Definition fr_ok (t : tracker) : Prop := NoDup (frontier t) /\ forall n, n ∈ frontier t <-> st t n = Frontier.
Record TI (strict : bool) (E : edges) (N : ptr -> Prop) (t : tracker) : Prop := {
  ti_fr : fr_ok t;
  ti_live : forall n, st t n = Frontier -> N n;
  ti_count : forall n, ct t n = cnt E t n;
  ti_ready : forall n, st t n = Frontier -> deg E n <= cnt E t n;
  ti_ahead : strict = true -> forall n, N n -> st t n = Ahead -> cnt E t n < deg E n }.

(** ** counting *)
Section Count.
  Context (P : nat * (option nat * option nat) -> Prop) `{forall x, Decision (P x)}.
  Lemma size_insert (E : edges) i e : E !! i = None -> size (filter P (<[i := e]> E)) = (if decide (P (i, e)) then 1 else 0) + size (filter P E).
  Proof.
    intros Hi. rewrite map_filter_insert. case_decide as D.
    - rewrite map_size_insert_None; [reflexivity|]. apply map_filter_lookup_None. now left.
    - rewrite map_filter_delete. rewrite map_size_delete_None; [reflexivity|]. apply map_filter_lookup_None. now left.
  Qed.
  Lemma size_delete (E : edges) i e : E !! i = Some e -> size (filter P E) = (if decide (P (i, e)) then 1 else 0) + size (filter P (delete i E)).
  Proof. intros Hi. rewrite <- size_insert by apply lookup_delete. now rewrite insert_delete by assumption. Qed.
  Lemma size_replace (E : edges) i e e' : E !! i = Some e ->
    size (filter P (<[i := e']> E)) + (if decide (P (i, e)) then 1 else 0) = size (filter P E) + (if decide (P (i, e')) then 1 else 0).
  Proof. intros Hi. rewrite (size_delete E i e Hi). rewrite <- insert_delete_insert. rewrite size_insert by apply lookup_delete. lia. Qed.
  Lemma size_list (E : edges) (L : list nat) : NoDup L -> (forall i, i ∈ L <-> exists e, E !! i = Some e /\ P (i, e)) -> size (filter P E) = length L.
  Proof.
    intros Hnd HL. unfold size, map_size. rewrite <- (fmap_length fst). apply Permutation_length, NoDup_Permutation; [apply NoDup_fst_map_to_list|assumption|].
    intros i. rewrite HL, elem_of_list_fmap. split.
    - intros ([j e] & -> & K). apply elem_of_map_to_list, map_filter_lookup_Some in K as [K1 K2]. eauto.
    - intros (e & K1 & K2). exists (i, e). split; [reflexivity|]. apply elem_of_map_to_list, map_filter_lookup_Some. auto.
  Qed.
End Count.
Lemma size_filter_ext (P Q : nat * (option nat * option nat) -> Prop) `{forall x, Decision (P x)} `{forall x, Decision (Q x)} (E E' : edges) :
  (forall i e, E !! i = Some e /\ P (i, e) <-> E' !! i = Some e /\ Q (i, e)) -> size (filter P E) = size (filter Q E').
Proof. intros K. f_equal. apply map_eq. intros i. apply option_eq. intros e. rewrite !map_filter_lookup_Some. apply K. Qed.
Lemma size_filter_le (P Q : nat * (option nat * option nat) -> Prop) `{forall x, Decision (P x)} `{forall x, Decision (Q x)} (E : edges) :
  (forall x, P x -> Q x) -> size (filter P E) <= size (filter Q E).
Proof.
  intros K. rewrite <- !size_dom. apply subseteq_size. intros i. rewrite !elem_of_dom. intros [e He]. apply map_filter_lookup_Some in He as [H1 H2].
  exists e. apply map_filter_lookup_Some. auto.
Qed.
Lemma size_filter_split (P Q R : nat * (option nat * option nat) -> Prop) `{forall x, Decision (P x)} `{forall x, Decision (Q x)} `{forall x, Decision (R x)} (E : edges) :
  (forall x, P x <-> Q x \/ R x) -> (forall x, Q x -> R x -> False) -> size (filter P E) = size (filter Q E) + size (filter R E).
Proof.
  intros K D. induction E as [|i e E Hi IH] using map_ind; [rewrite !map_filter_empty; reflexivity|].
  rewrite !size_insert by assumption. rewrite IH. specialize (K (i, e)). specialize (D (i, e)).
  destruct (decide (P (i, e))), (decide (Q (i, e))), (decide (R (i, e))); try lia; exfalso; tauto.
Qed.
Lemma cnt_ext E t t' n : (forall m, st t' m = Behind <-> st t m = Behind) -> cnt E t' n = cnt E t n.
Proof.
  intros H. apply size_filter_ext. intros i [f w]. simpl. unfold active. destruct f as [m|]; [rewrite H|]; tauto.
Qed.
Lemma cnt_le_deg E t n : cnt E t n <= deg E n.
Proof. apply size_filter_le. tauto. Qed.

(** ** the operations of the tracker *)
Lemma entry_eq t n : entry t n = (st t n, ct t n).
Proof. unfold st, ct. now destruct (entry t n). Qed.
Lemma st_set n s c t m : st (set_entry n s c t) m = if decide (m = n) then s else st t m.
Proof. unfold st, entry, set_entry. simpl. case_decide as D; [subst; now rewrite lookup_insert|now rewrite lookup_insert_ne by auto]. Qed.
Lemma ct_set n s c t m : ct (set_entry n s c t) m = if decide (m = n) then c else ct t m.
Proof. unfold ct, entry, set_entry. simpl. case_decide as D; [subst; now rewrite lookup_insert|now rewrite lookup_insert_ne by auto]. Qed.
Lemma fr_ok_ext t t' : frontier t' = frontier t -> (forall m, st t' m = st t m) -> fr_ok t -> fr_ok t'.
Proof. intros E H [A B]. split; [now rewrite E|]. intros n. now rewrite E, H. Qed.
Lemma fr_ok_push t t' n : frontier t' = frontier t ++ [n] -> (forall m, st t' m = if decide (m = n) then Frontier else st t m) -> st t n <> Frontier -> fr_ok t -> fr_ok t'.
Proof.
  intros E H Hn [A B]. split.
  - rewrite E. apply NoDup_app. split; [assumption|]. split; [|apply NoDup_singleton]. intros x Hx Hx'. apply elem_of_list_singleton in Hx'. subst x. apply B in Hx. contradiction.
  - intros m. rewrite E, elem_of_app, elem_of_list_singleton, H, B. case_decide as D; [subst; tauto|]. split; [intros [K|K]; [assumption|contradiction]|tauto].
Qed.
Lemma fr_ok_erase t t' n s : frontier t' = filter (fun m => m <> n) (frontier t) -> (forall m, st t' m = if decide (m = n) then s else st t m) -> s <> Frontier -> fr_ok t -> fr_ok t'.
Proof.
  intros E H Hs [A B]. split; [rewrite E; now apply NoDup_filter|]. intros m. rewrite E, elem_of_list_filter, H, B. case_decide as D; [|tauto].
  split; [intros [K _]; contradiction|intros K; contradiction].
Qed.
Lemma check_activation_spec n thr t : fr_ok t ->
  let t' := check_activation n thr t in
  fr_ok t' /\ (forall m, ct t' m = ct t m) /\
  (forall m, st t' m = if decide (m = n /\ thr <= ct t n /\ st t n = Ahead) then Frontier else st t m).
Proof.
  intros Hf. unfold check_activation. rewrite entry_eq. cbv zeta. destruct (decide (thr <= ct t n /\ st t n = Ahead)) as [D|D].
  - assert (forall m, st (set_entry n Frontier (ct t n) (push_frontier n t)) m = if decide (m = n) then Frontier else st t m) as S by (intros m; rewrite st_set; reflexivity).
    split; [|split].
    + eapply fr_ok_push; [| |destruct D as [_ ->]; discriminate|exact Hf]; [reflexivity|exact S].
    + intros m. rewrite ct_set. case_decide; [now subst|reflexivity].
    + intros m. rewrite S. destruct (decide (m = n)) as [->|Dm]; [rewrite decide_True by tauto; reflexivity|rewrite decide_False by tauto; reflexivity].
  - assert (forall m, st (set_entry n (st t n) (ct t n) t) m = st t m) as S by (intros m; rewrite st_set; case_decide; [now subst|reflexivity]).
    split; [|split].
    + eapply fr_ok_ext; [| |exact Hf]; [reflexivity|exact S].
    + intros m. rewrite ct_set. case_decide; [now subst|reflexivity].
    + intros m. rewrite S. rewrite decide_False by (intros (-> & K); contradiction). reflexivity.
Qed.
Lemma check_deactivation_spec n thr t : fr_ok t ->
  let t' := check_deactivation n thr t in
  fr_ok t' /\ (forall m, ct t' m = ct t m) /\
  (forall m, st t' m = if decide (m = n /\ ct t n < thr /\ st t n = Frontier) then Ahead else st t m).
Proof.
  intros Hf. unfold check_deactivation. rewrite entry_eq. cbv zeta. destruct (decide (ct t n < thr /\ st t n = Frontier)) as [D|D].
  - assert (forall m, st (set_entry n Ahead (ct t n) (erase_frontier n t)) m = if decide (m = n) then Ahead else st t m) as S by (intros m; rewrite st_set; reflexivity).
    split; [|split].
    + eapply (fr_ok_erase t _ n Ahead); [reflexivity|exact S|discriminate|exact Hf].
    + intros m. rewrite ct_set. case_decide; [now subst|reflexivity].
    + intros m. rewrite S. destruct (decide (m = n)) as [->|Dm]; [rewrite decide_True by tauto; reflexivity|rewrite decide_False by tauto; reflexivity].
  - assert (forall m, st (set_entry n (st t n) (ct t n) t) m = st t m) as S by (intros m; rewrite st_set; case_decide; [now subst|reflexivity]).
    split; [|split].
    + eapply fr_ok_ext; [| |exact Hf]; [reflexivity|exact S].
    + intros m. rewrite ct_set. case_decide; [now subst|reflexivity].
    + intros m. rewrite S. rewrite decide_False by (intros (-> & K); contradiction). reflexivity.
Qed.
Lemma mark_spec n t : fr_ok t ->
  let t' := mark_if_frontier n t in
  fr_ok t' /\ (forall m, ct t' m = ct t m) /\
  (forall m, st t' m = if decide (m = n /\ st t n = Frontier) then Behind else st t m).
Proof.
  intros Hf. unfold mark_if_frontier. rewrite entry_eq. cbv zeta. destruct (decide (st t n = Frontier)) as [D|D].
  - assert (forall m, st (set_entry n Behind (ct t n) (erase_frontier n t)) m = if decide (m = n) then Behind else st t m) as S by (intros m; rewrite st_set; reflexivity).
    split; [|split].
    + eapply (fr_ok_erase t _ n Behind); [reflexivity|exact S|discriminate|exact Hf].
    + intros m. rewrite ct_set. case_decide; [now subst|reflexivity].
    + intros m. rewrite S. destruct (decide (m = n)) as [->|Dm]; [rewrite decide_True by tauto; reflexivity|rewrite decide_False by tauto; reflexivity].
  - assert (forall m, st (set_entry n (st t n) (ct t n) t) m = st t m) as S by (intros m; rewrite st_set; case_decide; [now subst|reflexivity]).
    split; [|split].
    + eapply fr_ok_ext; [| |exact Hf]; [reflexivity|exact S].
    + intros m. rewrite ct_set. case_decide; [now subst|reflexivity].
    + intros m. rewrite S. rewrite decide_False by (intros (-> & K); contradiction). reflexivity.
Qed.
Lemma set_ct_spec n c t : fr_ok t ->
  let t' := set_entry n (st t n) c t in fr_ok t' /\ (forall m, ct t' m = if decide (m = n) then c else ct t m) /\ (forall m, st t' m = st t m).
Proof.
  intros Hf. cbv zeta. assert (forall m, st (set_entry n (st t n) c t) m = st t m) as S by (intros m; rewrite st_set; case_decide; [now subst|reflexivity]).
  split; [|split; [intros m; apply ct_set|exact S]]. eapply fr_ok_ext; [| |exact Hf]; [reflexivity|exact S].
Qed.
Lemma inc_spec n thr t : fr_ok t ->
  let t' := inc_activation n thr t in
  fr_ok t' /\ (forall m, ct t' m = if decide (m = n) then S (ct t n) else ct t m) /\
  (forall m, st t' m = if decide (m = n /\ thr <= S (ct t n) /\ st t n = Ahead) then Frontier else st t m).
Proof.
  intros Hf. unfold inc_activation. rewrite entry_eq. destruct (set_ct_spec n (S (ct t n)) t Hf) as (A & B & C). cbv zeta in *.
  destruct (check_activation_spec n thr _ A) as (A' & B' & C'). cbv zeta in *. split; [assumption|]. split.
  - intros m. rewrite B', B. reflexivity.
  - intros m. rewrite C', !C, B. rewrite (decide_True (P := n = n)) by reflexivity. reflexivity.
Qed.
Lemma dec_spec n thr t : fr_ok t ->
  let t' := dec_activation n thr t in
  fr_ok t' /\ (forall m, ct t' m = if decide (m = n) then pred (ct t n) else ct t m) /\
  (forall m, st t' m = if decide (m = n /\ pred (ct t n) < thr /\ st t n = Frontier) then Ahead else st t m).
Proof.
  intros Hf. unfold dec_activation. rewrite entry_eq. destruct (set_ct_spec n (pred (ct t n)) t Hf) as (A & B & C). cbv zeta in *.
  destruct (check_deactivation_spec n thr _ A) as (A' & B' & C'). cbv zeta in *. split; [assumption|]. split.
  - intros m. rewrite B', B. reflexivity.
  - intros m. rewrite C', !C, B. rewrite (decide_True (P := n = n)) by reflexivity. reflexivity.
Qed.
(** operations that do not visit anything *)
Definition same_behind (t t' : tracker) : Prop := forall m, st t' m = Behind <-> st t m = Behind.
Lemma sb_act n thr t : fr_ok t -> same_behind t (check_activation n thr t).
Proof. intros H m. destruct (check_activation_spec n thr t H) as (_ & _ & ->). case_decide as D; [destruct D as (-> & _ & ->); split; discriminate|reflexivity]. Qed.
Lemma sb_deact n thr t : fr_ok t -> same_behind t (check_deactivation n thr t).
Proof. intros H m. destruct (check_deactivation_spec n thr t H) as (_ & _ & ->). case_decide as D; [destruct D as (-> & _ & ->); split; discriminate|reflexivity]. Qed.
Lemma sb_inc n thr t : fr_ok t -> same_behind t (inc_activation n thr t).
Proof. intros H m. destruct (inc_spec n thr t H) as (_ & _ & ->). case_decide as D; [destruct D as (-> & _ & ->); split; discriminate|reflexivity]. Qed.
Lemma sb_dec n thr t : fr_ok t -> same_behind t (dec_activation n thr t).
Proof. intros H m. destruct (dec_spec n thr t H) as (_ & _ & ->). case_decide as D; [destruct D as (-> & _ & ->); split; discriminate|reflexivity]. Qed.

(** ** effects of changes of the graph *)
Lemma deg_insert E i f w m : E !! i = None -> deg (<[i := (f, w)]> E) m = (if decide (w = Some m) then 1 else 0) + deg E m.
Proof. intros H. unfold deg. rewrite size_insert by assumption. reflexivity. Qed.
Lemma cnt_insert E t i f w m : E !! i = None -> cnt (<[i := (f, w)]> E) t m = (if decide (w = Some m /\ active t f) then 1 else 0) + cnt E t m.
Proof. intros H. unfold cnt. rewrite size_insert by assumption. simpl. reflexivity. Qed.
Lemma deg_delete E i f w m : E !! i = Some (f, w) -> deg E m = (if decide (w = Some m) then 1 else 0) + deg (delete i E) m.
Proof. intros H. unfold deg. rewrite (size_delete _ E i (f, w) H). reflexivity. Qed.
Lemma cnt_delete E t i f w m : E !! i = Some (f, w) -> cnt E t m = (if decide (w = Some m /\ active t f) then 1 else 0) + cnt (delete i E) t m.
Proof. intros H. unfold cnt. rewrite (size_delete _ E i (f, w) H). reflexivity. Qed.

Tactic Notation "cased" ident(D) := match goal with |- context [if ?d then _ else _] => destruct d as [D|D] end.
Section Steps.
  Context (b : bool) (N : ptr -> Prop).

  Lemma TI_add_edge E t i f w : TI b E N t -> E !! i = None -> (forall n, w = Some n -> N n) ->
    let E' := <[i := (f, w)]> E in
    TI b E' N (match w with None => t | Some n => if decide (active t f) then inc_activation n (deg E' n) t else check_deactivation n (deg E' n) t end).
  Proof.
    intros [F L C R A] Hi Hw E'. assert (forall m, deg E' m = (if decide (w = Some m) then 1 else 0) + deg E m) as Ed by (intros m; now apply deg_insert).
    assert (forall m, cnt E' t m = (if decide (w = Some m /\ active t f) then 1 else 0) + cnt E t m) as Ec by (intros m; now apply cnt_insert).
    destruct w as [n|].
    2:{ constructor; [assumption|assumption| | |].
        - intros m. rewrite Ec, C, decide_False by (intros [K _]; discriminate). reflexivity.
        - intros m. rewrite Ec, Ed, !decide_False by (try intros [K _]; discriminate). apply R.
        - intros Hb m. rewrite Ec, Ed, !decide_False by (try intros [K _]; discriminate). now apply A. }
    destruct (decide (active t f)) as [Da|Da].
    - pose proof (sb_inc n (deg E' n) t F) as SB. destruct (inc_spec n (deg E' n) t F) as (F' & C' & S'). cbv zeta in *. set (t' := inc_activation n (deg E' n) t) in *.
      assert (forall m, cnt E' t' m = (if decide (m = n) then 1 else 0) + cnt E t m) as Ec'.
      { intros m. rewrite (cnt_ext _ _ _ _ SB), Ec. destruct (decide (m = n)) as [->|D]; [rewrite decide_True by auto|rewrite decide_False by (intros [K _]; congruence)]; reflexivity. }
      assert (forall m, deg E' m = (if decide (m = n) then 1 else 0) + deg E m) as Ed'.
      { intros m. rewrite Ed. destruct (decide (m = n)) as [->|D]; [rewrite decide_True by auto|rewrite decide_False by congruence]; reflexivity. }
      constructor; [assumption| | | |].
      + intros m. rewrite S'. cased D; [destruct D as (-> & _); intros _; now apply Hw|apply L].
      + intros m. rewrite C', Ec'. cased D; [subst; rewrite C; reflexivity|apply C].
      + intros m. rewrite S', (Ec' m), (Ed' m). destruct (decide (m = n)) as [->|Dm].
        * cased D; [|intros K; specialize (R n K); lia]. intros _. destruct D as (_ & D & _). rewrite Ed', decide_True, C in D by reflexivity. lia.
        * rewrite decide_False by tauto. simpl. apply R.
      + intros Hb m Hm. rewrite S', (Ec' m), (Ed' m). destruct (decide (m = n)) as [->|Dm].
        * cased D; [discriminate|]. intros K. rewrite Ed', decide_True, C in D by reflexivity. destruct (decide (1 + deg E n <= S (cnt E t n))) as [D1|D1]; [exfalso; apply D; auto|]. lia.
        * rewrite decide_False by tauto. simpl. now apply A.
    - pose proof (sb_deact n (deg E' n) t F) as SB. destruct (check_deactivation_spec n (deg E' n) t F) as (F' & C' & S'). cbv zeta in *. set (t' := check_deactivation n (deg E' n) t) in *.
      assert (forall m, cnt E' t' m = cnt E t m) as Ec'.
      { intros m. rewrite (cnt_ext _ _ _ _ SB), Ec. rewrite decide_False by (intros [_ K]; contradiction). reflexivity. }
      assert (forall m, deg E' m = (if decide (m = n) then 1 else 0) + deg E m) as Ed'.
      { intros m. rewrite Ed. destruct (decide (m = n)) as [->|D]; [rewrite decide_True by auto|rewrite decide_False by congruence]; reflexivity. }
      constructor; [assumption| | | |].
      + intros m. rewrite S'. cased D; [discriminate|apply L].
      + intros m. rewrite C', Ec'. apply C.
      + intros m. rewrite S', (Ec' m), (Ed' m). cased D; [discriminate|]. intros K. destruct (decide (m = n)) as [->|Dm]; [|simpl; now apply R].
        exfalso. apply D. split; [reflexivity|]. split; [|assumption]. rewrite Ed', decide_True, C by reflexivity. pose proof (cnt_le_deg E t n). lia.
      + intros Hb m Hm. rewrite S', (Ec' m), (Ed' m). cased D.
        * intros _. destruct D as (-> & D & _). rewrite Ed', C, decide_True in D by reflexivity. rewrite decide_True by reflexivity. lia.
        * intros K. pose proof (A Hb m Hm K). destruct (decide (m = n)); lia.
  Qed.

  Lemma TI_delete_edge E t i f w thr0 thr : TI b E N t -> E !! i = Some (f, w) -> (forall n, w = Some n -> N n) ->
    (forall n, w = Some n -> thr0 <= deg E n - 1 <= thr /\ (b = true -> thr = deg E n - 1)) ->
    TI b (delete i E) N (match w with None => t | Some n => if decide (active t f) then dec_activation n thr0 t else check_activation n thr t end).
  Proof.
    intros [F L C R A] Hi Hw Hthr. set (E' := delete i E). assert (forall m, deg E m = (if decide (w = Some m) then 1 else 0) + deg E' m) as Ed by (intros m; apply (deg_delete _ _ _ _ _ Hi)).
    assert (forall m, cnt E t m = (if decide (w = Some m /\ active t f) then 1 else 0) + cnt E' t m) as Ec by (intros m; apply (cnt_delete _ _ _ _ _ _ Hi)).
    destruct w as [n|].
    2:{ assert (forall m, deg E' m = deg E m) as Ed2 by (intros m; rewrite Ed, decide_False by discriminate; reflexivity).
        assert (forall m, cnt E' t m = cnt E t m) as Ec2 by (intros m; rewrite Ec, decide_False by (intros [K _]; discriminate); reflexivity).
        constructor; [assumption|assumption| | |].
        - intros m. rewrite Ec2. apply C.
        - intros m. rewrite Ec2, Ed2. apply R.
        - intros Hb m. rewrite Ec2, Ed2. now apply A. }
    destruct (Hthr n eq_refl) as [Ht1 Ht2].
    assert (forall m, deg E m = (if decide (m = n) then 1 else 0) + deg E' m) as Ed'.
    { intros m. rewrite Ed. destruct (decide (m = n)) as [->|D]; [rewrite decide_True by auto|rewrite decide_False by congruence]; reflexivity. }
    destruct (decide (active t f)) as [Da|Da].
    - pose proof (sb_dec n thr0 t F) as SB. destruct (dec_spec n thr0 t F) as (F' & C' & S'). cbv zeta in *. set (t' := dec_activation n thr0 t) in *.
      assert (forall m, st t' m = st t m) as S2 by (intros m; rewrite S', decide_False; [reflexivity|]; intros (_ & K1 & K2); specialize (R n K2); rewrite <- C in R; lia).
      assert (forall m, cnt E t m = (if decide (m = n) then 1 else 0) + cnt E' t' m) as Ec'.
      { intros m. rewrite (cnt_ext _ _ _ _ SB), Ec. destruct (decide (m = n)) as [->|D]; [rewrite decide_True by auto|rewrite decide_False by (intros [K _]; congruence)]; reflexivity. }
      constructor; [assumption| | | |].
      + intros m. rewrite S2. apply L.
      + intros m. rewrite C'. cased D; [subst|].
        * rewrite C, Ec', decide_True by reflexivity. reflexivity.
        * rewrite C, Ec', decide_False by assumption. reflexivity.
      + intros m. rewrite S2. intros K. specialize (R m K). rewrite Ed', Ec' in R. lia.
      + intros Hb m Hm. rewrite S2. intros K. specialize (A Hb m Hm K). rewrite Ed', Ec' in A. lia.
    - pose proof (sb_act n thr t F) as SB. destruct (check_activation_spec n thr t F) as (F' & C' & S'). cbv zeta in *. set (t' := check_activation n thr t) in *.
      assert (forall m, cnt E' t' m = cnt E t m) as Ec'.
      { intros m. rewrite (cnt_ext _ _ _ _ SB). rewrite (Ec m), decide_False by (intros [_ K]; contradiction). reflexivity. }
      constructor; [assumption| | | |].
      + intros m. rewrite S'. cased D; [destruct D as (-> & _); intros _; now apply Hw|apply L].
      + intros m. rewrite C', Ec'. apply C.
      + intros m. rewrite S', Ec'. cased D.
        * intros _. destruct D as (-> & D & _). rewrite C in D. specialize (Ed' n). rewrite decide_True in Ed' by reflexivity. lia.
        * intros K. specialize (R m K). rewrite Ed' in R. lia.
      + intros Hb m Hm. rewrite S', Ec'. cased D; [discriminate|]. intros K. specialize (A Hb m Hm K). rewrite Ed' in A. destruct (decide (m = n)) as [->|Dm]; [|lia].
        specialize (Ht2 Hb). rewrite C in D. specialize (Ed' n). rewrite decide_True in Ed' by reflexivity.
        destruct (decide (thr <= cnt E t n)) as [D1|D1]; [exfalso; apply D; auto|]. lia.
  Qed.

  (** the provider of an edge changes *)
  Lemma TI_change_from E t i f f' n : TI b E N t -> E !! i = Some (f, Some n) -> N n ->
    let E' := <[i := (f', Some n)]> E in
    TI b E' N (match bool_decide (active t f'), bool_decide (active t f) with
               | true, false => inc_activation n (deg E n) t
               | false, true => dec_activation n (deg E n) t
               | _, _ => t end).
  Proof.
    intros [F L C R A] Hi Hn E'.
    assert (forall m, deg E' m = deg E m) as Ed.
    { intros m. pose proof (size_replace (fun kv => kv.2.2 = Some m) E i (f, Some n) (f', Some n) Hi) as K. unfold deg. simpl in K. unfold E'. lia. }
    assert (forall m, cnt E' t m + (if decide (n = m /\ active t f) then 1 else 0) = cnt E t m + (if decide (n = m /\ active t f') then 1 else 0)) as Ec.
    { intros m. pose proof (size_replace (fun kv => kv.2.2 = Some m /\ active t kv.2.1) E i (f, Some n) (f', Some n) Hi) as K. simpl in K. unfold cnt, E'.
      assert (forall f0, (if decide (Some n = Some m /\ active t f0) then 1 else 0) = (if decide (n = m /\ active t f0) then 1 else 0)) as Q.
      { intros f0. destruct (decide (n = m /\ active t f0)) as [D|D]; [rewrite decide_True by (destruct D; split; congruence)|rewrite decide_False by (intros [D1 D2]; apply D; split; congruence)]; reflexivity. }
      rewrite <- !Q. exact K. }
    assert (forall m, m <> n -> cnt E' t m = cnt E t m) as Ec0.
    { intros m Hm. specialize (Ec m). rewrite !decide_False in Ec by (intros [K _]; congruence). lia. }
    destruct (decide (active t f')) as [D'|D'], (decide (active t f)) as [D|D];
      rewrite ?(bool_decide_eq_true_2 _ D'), ?(bool_decide_eq_true_2 _ D), ?(bool_decide_eq_false_2 _ D'), ?(bool_decide_eq_false_2 _ D).
    - assert (forall m, cnt E' t m = cnt E t m) as Ec2.
      { intros m. destruct (decide (m = n)) as [->|Hm]; [|now apply Ec0]. specialize (Ec n). rewrite !decide_True in Ec by auto. lia. }
      constructor; [assumption|assumption|intros m; rewrite Ec2; apply C|intros m; rewrite Ec2, Ed; apply R|intros Hb m; rewrite Ec2, Ed; now apply A].
    - pose proof (sb_inc n (deg E n) t F) as SB. destruct (inc_spec n (deg E n) t F) as (F' & C' & S'). cbv zeta in *. set (t' := inc_activation n (deg E n) t) in *.
      assert (cnt E' t n = S (cnt E t n)) as En. { specialize (Ec n). rewrite decide_False, decide_True in Ec by tauto. lia. }
      constructor; [assumption| | | |].
      + intros m. rewrite S'. cased Dm; [destruct Dm as (-> & _); auto|apply L].
      + intros m. rewrite C', (cnt_ext _ _ _ _ SB). cased Dm; [subst; rewrite En, C; reflexivity|rewrite Ec0 by assumption; apply C].
      + intros m. rewrite S', (cnt_ext _ _ _ _ SB), (Ed m). destruct (decide (m = n)) as [->|Dm].
        * rewrite En. cased D2; [intros _; destruct D2 as (_ & D2 & _); rewrite C in D2; exact D2|]. intros K. specialize (R n K). lia.
        * rewrite decide_False by tauto. rewrite Ec0 by assumption. apply R.
      + intros Hb m Hm. rewrite S', (cnt_ext _ _ _ _ SB), (Ed m). destruct (decide (m = n)) as [->|Dm].
        * rewrite En. cased D2; [discriminate|]. intros K. rewrite C in D2. destruct (decide (deg E n <= S (cnt E t n))); [exfalso; apply D2; auto|lia].
        * rewrite decide_False by tauto. rewrite Ec0 by assumption. now apply A.
    - pose proof (sb_dec n (deg E n) t F) as SB. destruct (dec_spec n (deg E n) t F) as (F' & C' & S'). cbv zeta in *. set (t' := dec_activation n (deg E n) t) in *.
      assert (S (cnt E' t n) = cnt E t n) as En. { specialize (Ec n). rewrite decide_True, decide_False in Ec by tauto. lia. }
      constructor; [assumption| | | |].
      + intros m. rewrite S'. cased Dm; [discriminate|apply L].
      + intros m. rewrite C', (cnt_ext _ _ _ _ SB). cased Dm; [subst; rewrite C, <- En; reflexivity|rewrite Ec0 by assumption; apply C].
      + intros m. rewrite S', (cnt_ext _ _ _ _ SB), (Ed m). destruct (decide (m = n)) as [->|Dm].
        * cased D2; [discriminate|]. intros K. exfalso. apply D2. split; [reflexivity|]. split; [|assumption]. rewrite C, <- En. pose proof (cnt_le_deg E t n). simpl. lia.
        * rewrite decide_False by tauto. rewrite Ec0 by assumption. apply R.
      + intros Hb m Hm. rewrite S', (cnt_ext _ _ _ _ SB), (Ed m). destruct (decide (m = n)) as [->|Dm].
        * intros _. pose proof (cnt_le_deg E t n). lia.
        * rewrite decide_False by tauto. rewrite Ec0 by assumption. now apply A.
    - assert (forall m, cnt E' t m = cnt E t m) as Ec2.
      { intros m. destruct (decide (m = n)) as [->|Hm]; [|now apply Ec0]. specialize (Ec n). rewrite !decide_False in Ec by tauto. lia. }
      constructor; [assumption|assumption|intros m; rewrite Ec2; apply C|intros m; rewrite Ec2, Ed; apply R|intros Hb m; rewrite Ec2, Ed; now apply A].
  Qed.
End Steps.
