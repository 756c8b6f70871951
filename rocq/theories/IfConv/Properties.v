(** If-conversion: properties. *)
From stdpp Require Import base list gmap.
From Coq Require Import ZArith Lia.
From Verif.LocalRegion Require Import Model Spec Facts.
From Verif.Unswitch Require Import Model Spec Proofs3 Proofs7.
From Verif.IfConv Require Import Model Spec Proofs1 Proofs2 Proofs3 Proofs4 Proofs5.
Open Scope nat_scope.

(** C89. If-conversion of a region and of the bodies of its loops: the region computes the same, for every meaning of the other operations, and is well-formed again. *)
Theorem if_conversion_preserves (other : nat -> list val -> option (list val)) (content : val -> val) r r' : good r -> if_convert r = Some r' -> same other content r r' /\ good r' /\ rargs r' = rargs r.
Proof. intros Hg. by apply if_convert_ok. Qed.
(** C89, totality: it does not throw *)
Theorem if_conversion_total r : good r -> plain r -> exists r', if_convert r = Some r'.
Proof. intros Hg Hp. destruct (if_convert_total (fun _ _ => None) (fun v => v) r Hg Hp) as [r' H]. by exists r'. Qed.
(** C89: the constant for a case is made unless the case, as a signed number of 64 bits, fits in w bits neither signed (with one bit more) nor unsigned *)
Theorem case_constant_range w v : (0 < w)%Z -> (0 <= v < 2 ^ 64)%Z -> let s := if decide (v < 2 ^ 63)%Z then v else (v - 2 ^ 64)%Z in
  (constant w v = None <-> (w < 64 /\ ~ - 2 ^ w <= s < 2 ^ w)%Z) /\ forall c, constant w v = Some c -> (0 <= c < 2 ^ w)%Z /\ exists k, s = (c + k * 2 ^ w)%Z.
Proof.
  intros Hw Hv s. unfold constant. change (int64 v) with s. assert (Hp : (0 < 2 ^ w)%Z) by (apply Z.pow_pos_nonneg; lia). pose proof (Z.div_mod s (2 ^ w) ltac:(lia)) as Hd. pose proof (Z.mod_pos_bound s (2 ^ w) Hp) as Hb. rewrite decide_False by lia. split.
  - assert (H : ((s / 2 ^ w = 0 \/ s / 2 ^ w = -1) <-> (- 2 ^ w <= s < 2 ^ w))%Z) by (clear Hw Hv; split; intros H; [destruct H as [H|H]; rewrite H in Hd; lia | nia]).
    destruct (decide (w < 64 /\ s / 2 ^ w <> 0 /\ s / 2 ^ w <> -1)%Z) as [D|D].
    + split; [|done]. intros _. split; [lia|]. intros C. apply H in C. lia.
    + split; [done|]. intros E. exfalso. apply D. split; [lia|]. split; intros C; apply E, H; lia.
  - intros c. destruct (decide (w < 64 /\ s / 2 ^ w <> 0 /\ s / 2 ^ w <> -1)%Z); [done|]. intros [= <-]. split; [done|]. exists (s / 2 ^ w)%Z. lia.
Qed.
(** C90. Afterwards nothing uses an output of a gamma node that only passes values on, if the gamma node has two subregions and its predicate does not come from a match with several cases. *)
Theorem if_conversion_complete r r' r0 r1 q es outs j x y0 y1 : good r -> if_convert r = Some r' -> Node (KGamma [r0; r1]) (q :: es) outs ∈ rnodes r' ->
  outs !! j = Some x -> rres r0 !! j = Some y0 -> rres r1 !! j = Some y1 -> y0 ∈ rargs r0 -> y1 ∈ rargs r1 -> unused r' x \/ several_cases (rnodes r') q.
Proof.
  intros Hg H Hn Hx H0 H1 Ha0 Ha1. assert (Hi : forall r y, y ∈ rargs r -> is_Some (arg_index r y)).
  { intros s y Hy. unfold arg_index. destruct (list_find_elem_of (fun a => a = y) _ _ Hy eq_refl) as [p Hp]. rewrite Hp. by eexists. }
  eapply (if_convert_done (fun _ _ => None) (fun v => v) r r' Hg H _ Hn); [done | | by apply Hi | by apply Hi]. apply elem_zip. exists j. split; [done|]. apply lookup_zip_with_Some. by exists y0, y1.
Qed.

(** a gamma node that passes on or swaps two values, in a loop, with a match of 8 bits *)
Definition pass : list region := [Region [0; 1; 2] [] [1; 2]; Region [0; 1; 2] [] [2; 2]].
Definition loop1 : region := Region [0; 1] [Node (KSimple (OOther 1)) [0] [2]; Node (KSimple (OMatch 8 [(5%Z, 0)] 1)) [2] [3]; Node (KGamma pass) [3; 0; 1] [4; 5]] [3; 4; 5].
Example if_convert_example : if_convert loop1 = Some (Region [0; 1]
  [Node (KSimple (OOther 1)) [0] [2]; Node (KSimple (OMatch 8 [(5%Z, 0)] 1)) [2] [3]; Node (KGamma pass) [3; 0; 1] [4; 5];
   Node (KSimple (OInt 8 5)) [] [6]; Node (KSimple (OEq 8)) [6; 2] [7]; Node (KSimple OSelect) [7; 0; 1] [8]] [3; 8; 1]).
Proof. vm_compute. reflexivity. Qed.
Ltac nodup := repeat (apply NoDup_cons; split; [intros Hc; repeat (apply elem_of_cons in Hc as [Hc|Hc]; [discriminate Hc|]); by apply elem_of_nil in Hc|]); apply NoDup_nil_2.
Ltac each H := repeat (apply elem_of_cons in H as [->|H]); try (by apply elem_of_nil in H).
Ltac eachn H := repeat (apply elem_of_cons in H as [H|H]; [try discriminate H|]); try (by apply elem_of_nil in H).
Ltac inl := repeat (first [apply elem_of_list_here | apply elem_of_list_further]).
Lemma loop1_good : good loop1 /\ plain loop1.
Proof.
  split; constructor.
  - split; [split; [vm_compute; nodup|]; split; [intros n x Hn Hx; cbn in Hn; each Hn; cbn in Hx; each Hx; vm_compute; inl | intros x Hx; cbn in Hx; each Hx; vm_compute; inl]|]. split; [|split].
    + exists (fun x => x). split; [intros n x y Hn Hx Hy | intros x n y Hx Hn Hy]; cbn in Hn; each Hn; cbn in Hx, Hy; each Hx; each Hy; lia.
    + exists (fun x => match x with 3 => 2 | _ => 0 end). split; [|split].
      * intros subs q es outs H. cbn in H. eachn H. by injection H as -> -> _ _.
      * intros w m d ins outs y p H Hy Hp. cbn in H. eachn H. injection H as _ -> _ _ ->. each Hy. each Hp. cbn. lia.
      * intros subs q es outs s j i x y o H Hs Hx Hy Ha He. cbn in H. eachn H. injection H as -> _ -> ->. destruct i as [|[|[|i]]]; try done; destruct j as [|[|[|j]]]; try done; cbn in *; by injection He as <-; injection Hx as <-.
    + intros n Hn. cbn in Hn. each Hn; (split; [|try done]).
      * done.
      * done.
      * split; [lia|]. intros p Hp. each Hp. cbn. lia.
      * split; [cbn; lia|]. intros s Hs. each Hs; (split; [|done]); (split; [vm_compute; nodup|]; split; [intros n x Hn; by apply elem_of_nil in Hn | intros x Hx; cbn in Hx; each Hx; vm_compute; inl]).
  - intros b ins outs H. cbn in H. eachn H.
  - intros n Hn. cbn in Hn. each Hn; try done. intros s x Hs Hx. each Hs; cbn in Hx; each Hx; done.
  - intros b ins outs H. cbn in H. eachn H.
Qed.

(** C89, refuted for matches of more than 64 bits: the case 2^63 is sign-extended. The region takes 2^63 to the first value before, and to the second after. *)
Definition wide : region := Region [0; 1; 2] [Node (KSimple (OMatch 128 [((2 ^ 63)%Z, 1)] 0)) [0] [3]; Node (KGamma [Region [0; 1; 2] [] [1]; Region [0; 1; 2] [] [2]]) [3; 1; 2] [4]] [4].
Theorem if_conversion_wide_refuted (other : nat -> list val -> option (list val)) (content : val -> val) a b : exists r', if_convert wide = Some r' /\
  (forall ws, runs other content wide [VInt 128 (2 ^ 63); a; b] ws -> ws = [b]) /\ runs other content r' [VInt 128 (2 ^ 63); a; b] [a].
Proof.
  exists (Region [0; 1; 2] (rnodes wide ++ [Node (KSimple (OInt 128 (2 ^ 128 - 2 ^ 63))) [] [5]; Node (KSimple (OEq 128)) [5; 0] [6]; Node (KSimple OSelect) [6; 2; 1] [7]]) [7]). split; [vm_compute; reflexivity|]. split.
  - intros ws Hr. apply runs_iff in Hr as (rho & E1 & Hh & <-). unfold wide in *. cbn [rargs rnodes rres map] in *. injection E1 as E0 Ea Eb. rewrite !hold_cons in Hh. destruct Hh as (H1 & H2 & _). apply holds_simple in H1. cbn [map] in H1. rewrite E0 in H1. unfold op_sem in H1. rewrite decide_True in H1 by (split; [done|]; split; vm_compute; [discriminate | reflexivity]).
    injection H1 as H1. replace (alternative [((2 ^ 63)%Z, 1)] 0 (2 ^ 63)) with 1 in H1 by (vm_compute; reflexivity). unfold holds in H2. cbn [nkind nins nouts map] in H2. rewrite <-H1 in H2. apply gamma_inv in H2 as (i & r & vs0 & E & Hi & Hr). injection E as <- <-. cbn in Hi. injection Hi as <-. apply runs_iff in Hr as (rho2 & E2 & _ & E3). cbn in E2, E3. injection E2 as _ _ E2. rewrite <-Eb, <-E2. by injection E3 as ->.
  - apply runs_iff. exists (fun x => match x with 0 => VInt 128 (2 ^ 63) | 1 => a | 2 => b | 3 => VCtl 1 | 4 => b | 5 => VInt 128 (2 ^ 128 - 2 ^ 63) | 6 => VInt 1 0 | _ => a end). split; [done|]. split; [|done]. unfold wide. cbn [rnodes app]. intros n Hn. each Hn.
    + apply holds_simple. vm_compute. reflexivity.
    + unfold holds. cbn [nkind nins nouts map]. eapply e_gamma; [reflexivity|]. apply runs_iff. exists (fun x => match x with 0 => content (VCtl 1) | 1 => a | _ => b end). split; [done|]. split; [|done]. intros n Hn. by apply elem_of_nil in Hn.
    + apply holds_simple. vm_compute. reflexivity.
    + apply holds_simple. vm_compute. reflexivity.
    + apply holds_simple. vm_compute. reflexivity.
Qed.
(** C89, refuted in general: a match whose only case has the default alternative fails an assertion; a match content argument that is passed on is a null pointer *)
Theorem if_conversion_crash_refuted : if_convert (Region [0; 1; 2] [Node (KSimple (OMatch 8 [(5%Z, 1)] 1)) [0] [3]; Node (KGamma pass) [3; 1; 2] [4; 5]] [4]) = None /\
  if_convert (Region [0; 1; 2] [Node (KGamma [Region [0; 1; 2] [] [0]; Region [0; 1; 2] [] [0]]) [0; 1; 2] [4]] [4]) = None.
Proof. split; vm_compute; reflexivity. Qed.
(** C90, refuted for gamma nodes in the subregions of others: they are not visited *)
Definition nested : region := Region [0; 1; 2] [Node (KGamma [Region [0; 1; 2] [Node (KGamma pass) [0; 1; 2] [3; 4]] [3]; Region [0; 1; 2] [] [1]]) [0; 1; 2] [3]] [3].
Theorem if_conversion_nested_refuted : if_convert nested = Some nested.
Proof. vm_compute. reflexivity. Qed.
