(** Node identities: the equations of simple nodes belong to one node of the module. *)
From stdpp Require Import base list list_numbers fin_sets gmap.
From Verif.Rvsdg Require Import Model Spec Sem Wf WfFacts ListFacts.
From Verif.Dne Require Import Model Spec ProofsMark Rel ProofsList ProofsNode.

Lemma map_mjoin {A B C} (g : B -> C) (f : A -> list B) l : map g (mjoin (map f l)) = mjoin (map (fun x => map g (f x)) l).
Proof. induction l as [|x l IH]; [done|]. change (mjoin (map f (x :: l))) with (f x ++ mjoin (map f l)). rewrite map_app, IH. done. Qed.
Lemma map_Forall_ext {A B} (f g : A -> B) l : Forall (fun x => f x = g x) l -> map f l = map g l.
Proof. induction 1; cbn; [done | by f_equal]. Qed.
Lemma ids_nodes : (forall n, node_ids n = map nid (nodes_in n)) /\ (forall r, region_ids r = map nid (nodes_of r)).
Proof.
  apply tree_ind.
  - intros id k ins outs subs H. cbn [node_ids nodes_in]. rewrite map_cons, map_mjoin. cbn [nid]. do 2 f_equal. by apply map_Forall_ext.
  - intros args res ns H. cbn [region_ids nodes_of]. rewrite map_mjoin. f_equal. by apply map_Forall_ext.
Qed.
Definition simple_of (o : oid) (id : nat) (l : bool) (op k : nat) (ins : list oid) (n : node) : Prop :=
  nid n = id /\ nkind n = (if l then Load op else Simple op) /\ nins n = ins /\ nouts n !! k = Some o.
Lemma simple_node : 
  (forall n o id l op k ins, (o, VSimple id l op k ins) ∈ ndefs n -> exists m, m ∈ nodes_in n /\ simple_of o id l op k ins m) /\
  (forall r o id l op k ins, (o, VSimple id l op k ins) ∈ rdefs r -> exists m, m ∈ nodes_of r /\ simple_of o id l op k ins m).
Proof.
  apply tree_ind.
  - intros id0 k0 ins0 outs subs IH o id l op k ins H. apply ndefs_unfold in H as [H|(r & Hr & [H|H])].
    + apply elem_of_index in H as (i & Hi & H). exists (Node id0 k0 ins0 outs subs). split; [cbn [nodes_in]; left|].
      destruct k0; cbn [out_view] in H; try discriminate; injection H as -> -> -> -> ->; split; try done.
    + apply elem_of_index in H as (i & Hi & H). destruct k0; cbn [arg_view] in H; repeat case_decide; discriminate.
    + rewrite Forall_forall in IH. destruct (IH r Hr _ _ _ _ _ _ H) as (m & Hm & ?). exists m. split; [|done]. cbn [nodes_in]. right. apply elem_of_mjoin_map. eauto.
  - intros args res ns IH o id l op k ins H. apply rdefs_unfold in H as (n & Hn & H). rewrite Forall_forall in IH. destruct (IH n Hn _ _ _ _ _ _ H) as (m & Hm & ?).
    exists m. split; [|done]. cbn [nodes_of]. apply elem_of_mjoin_map. eauto.
Qed.
Lemma simple_node_defs t o id l op k ins : (o, VSimple id l op k ins) ∈ defs t -> exists m, m ∈ nodes_of t /\ simple_of o id l op k ins m.
Proof.
  unfold defs. intros [H|H]%elem_of_app; [|by apply simple_node]. apply elem_of_list_In, in_map_iff in H as (? & ? & _). discriminate.
Qed.
Lemma NoDup_map_inj {A B} (f : A -> B) (l : list A) x y : NoDup (map f l) -> x ∈ l -> y ∈ l -> f x = f y -> x = y.
Proof.
  intros Hn [i Hi]%elem_of_list_lookup [j Hj]%elem_of_list_lookup E. assert (i = j); [|congruence].
  eapply (NoDup_lookup (f <$> l)); [exact Hn| |]; rewrite list_lookup_fmap; [by rewrite Hi | rewrite Hj; cbn; by rewrite E].
Qed.
Lemma node_unique t m m' : NoDup (region_ids t) -> m ∈ nodes_of t -> m' ∈ nodes_of t -> nid m = nid m' -> m = m'.
Proof. rewrite (proj2 ids_nodes). intros. eapply NoDup_map_inj; eauto. Qed.
Lemma same_id t : NoDup (region_ids t) -> forall o o' id l l' op op' k k' ins ins',
  (o, VSimple id l op k ins) ∈ defs t -> (o', VSimple id l' op' k' ins') ∈ defs t -> l = l' /\ op = op' /\ ins = ins'.
Proof.
  intros Hn o o' id l l' op op' k k' ins ins' (m & Hm & H1 & H2 & H3 & _)%simple_node_defs (m' & Hm' & H1' & H2' & H3' & _)%simple_node_defs.
  assert (m = m') as <- by (eapply node_unique; eauto; congruence). rewrite H2 in H2'. split; [|split]; [| | congruence]; destruct l, l'; congruence.
Qed.
Lemma zok_wf t c : NoDup (region_ids t) -> snd_ctx t c -> zokr c t.
Proof.
  intros Hn [H _] m Hm Hs Hi. destruct (H _ Hi) as (o & l & op & k & ins & (m' & Hm' & H1 & _ & _ & H4)%simple_node_defs & _).
  assert (m' = m) as -> by (eapply node_unique; eauto). intros E. by rewrite E in H4.
Qed.
