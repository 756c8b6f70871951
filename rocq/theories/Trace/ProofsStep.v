(** Tracing within a region. *)
From stdpp Require Import base list list_numbers fin_sets gmap.
From Verif.Rvsdg Require Import Model Spec Sem Wf WfFacts Det Sim Local Args Refine Chase.
From Verif.Dne Require Import Spec ProofsIds.
From Verif.Trace Require Import Model Spec ProofsOwners ProofsOrder ProofsThrough.

Lemma reg_nodes_of t r n : reg t r -> n ∈ rnodes r -> n ∈ nodes_of t.
Proof.
  assert (Hin : forall r n, n ∈ rnodes r -> forall m, m ∈ nodes_in n -> m ∈ nodes_of r). { intros [args res ns] n' H m Hm. cbn [rnodes nodes_of] in *. apply elem_of_mjoin_map. eauto. }
  assert (Hself : forall n, n ∈ nodes_in n) by (intros [id k ins outs subs]; cbn [nodes_in]; left).
  intros Hr. revert n. induction Hr as [|r m s Hr IH Hm Hs]; intros n Hn; [by apply (Hin t n Hn n)|].
  assert (G : forall m', m' ∈ nodes_in m -> m' ∈ nodes_of t).
  { clear n Hn. revert IH Hm. assert (H0 : reg t r) by done. revert H0. clear Hr Hs. revert Hin Hself. clear. intros Hin Hself Hr _ Hm m' Hm'. revert m Hm m' Hm'. induction Hr as [|r n r' Hr IH Hn Hr']; intros m Hm m' Hm'.
    - by eapply Hin.
    - eapply (IH n Hn). destruct n as [id k ins outs subs]. cbn [nsubs] in Hr'. cbn [nodes_in]. right. apply elem_of_mjoin_map. exists r'. split; [done|]. by eapply Hin. }
  apply G. destruct m as [id k ins outs subs]. cbn [nsubs] in Hs. cbn [nodes_in]. right. apply elem_of_mjoin_map. exists s. split; [done|]. by eapply Hin.
Qed.

Section Step.
  Context {V : Type} (ctl : V -> option nat) (content : V -> V) (sem : nat -> list V -> option (list V)) (addr imp : nat -> V) (cfg : config) (t : region).
  Local Notation same := (same ctl content sem addr imp t).
  Context (Hwf : wf t).
  (** loads do not change memory states, barriers pass their first operand on *)
  Context (Hload : loaded cfg = true -> passes sem (fun d => d ∈ defs t)).
  Context (Hbar : forall op vs ws, barrier cfg op = true -> sem op vs = Some ws -> ws !! 0 = vs !! 0).
  (** barriers have one output and an operand *)
  Context (Hshape : forall r n op, reg t r -> n ∈ rnodes r -> nkind n = Simple op -> barrier cfg op = true -> length (nouts n) = 1 /\ nins n <> []).

  Lemma Hw : wf_region t.
  Proof using Hwf. apply Hwf. Qed.
  Lemma Hnd : NoDup (defs t).*1.
  Proof using Hwf. apply Hwf. Qed.
  Definition safe : Prop := no_match_content t /\ gammas_branch t.
  Definition mc (o : oid) : Prop := exists r n b s, owner_of t o = Some (ArgumentOf r n b s 0) /\ nkind n = Gamma.

  Lemma owner_at o w : owned_at t o w -> owner_of t o = Some w.
  Proof using Hwf. intros H. by apply (owner_of_iff t Hnd). Qed.
  Lemma owns_owner r o : reg t r -> owns r o -> (exists n k, n ∈ rnodes r /\ nouts n !! k = Some o /\ owner_of t o = Some (OutputOf r n k)) \/
    (r = t /\ o ∈ rargs t /\ owner_of t o = Some RootArgument) \/
    (exists r' n b i, reg t r' /\ n ∈ rnodes r' /\ nsubs n !! b = Some r /\ rargs r !! i = Some o /\ owner_of t o = Some (ArgumentOf r' n b r i)).
  Proof using Hwf.
    intros Hr [Ho|(n & Hn & Ho)].
    - right. destruct Hr as [|r n s Hr Hn Hs]; [left; split; [done|]; split; [done | by apply owner_at] |]. right. apply elem_of_list_lookup in Hs as [b Hb]. apply elem_of_list_lookup in Ho as [i Hi].
      exists r, n, b, i. repeat split; try done. apply owner_at. done.
    - left. apply elem_of_list_lookup in Ho as [k Hk]. exists n, k. repeat split; try done. apply owner_at. done.
  Qed.
  Lemma owns_app r o : o ∈ rargs r ++ own (rnodes r) <-> owns r o.
  Proof using. clear. rewrite elem_of_app, elem_of_own. done. Qed.
  Lemma ins_owned r n x : reg t r -> n ∈ rnodes r -> x ∈ nins n -> owns r x.
  Proof using Hwf. intros Hr Hn Hx. apply owns_app. eapply wf_region_ins; [|exact Hn|done]. by apply (reg_wf t); [apply Hw|]. Qed.
  Lemma res_owned r x : reg t r -> x ∈ rres r -> owns r x.
  Proof using Hwf. intros Hr Hx. apply owns_app. eapply wf_region_res; [|done]. by apply (reg_wf t); [apply Hw|]. Qed.
  Lemma owns_order r o : owns r o -> o ∈ rargs r ++ rorder r.
  Proof using. clear. intros H%owns_app. rewrite rorder_unfold. apply elem_of_app in H as [H|H]; apply elem_of_app; [auto|]. right. by apply own_rorder. Qed.
  Lemma owns_key r o : reg t r -> owns r o -> o ∈ (defs t).*1.
  Proof using Hwf. intros Hr Ho. apply owned_key; [apply Hnd|]. destruct (owns_owner r o Hr Ho) as [(n & k & _ & _ & H)|[(_ & _ & H)|(r' & n & b & i & _ & _ & _ & _ & H)]]; eauto. Qed.
  Lemma region_unique r r' o : reg t r -> reg t r' -> owns r o -> owns r' o -> r = r'.
  Proof using Hwf.
    intros Hr Hr' Ho Ho'. destruct (owns_owner r o Hr Ho) as [(n & k & _ & _ & H)|[(-> & _ & H)|(q & n & b & i & _ & _ & _ & _ & H)]], (owns_owner r' o Hr' Ho') as [(n' & k' & _ & _ & H')|[(-> & _ & H')|(q' & n' & b' & i' & _ & _ & _ & _ & H')]]; congruence.
  Qed.
  Lemma id_unique r n r' n' : reg t r -> n ∈ rnodes r -> reg t r' -> n' ∈ rnodes r' -> nid n = nid n' -> n = n'.
  Proof using Hwf. intros H1 H2 H3 H4 H5. eapply (node_unique t); [apply Hwf | by apply (reg_nodes_of t r) | by apply (reg_nodes_of t r') | done]. Qed.
  Lemma output_not_mc r n k o : reg t r -> n ∈ rnodes r -> nouts n !! k = Some o -> ~ mc o.
  Proof using Hwf. intros Hr Hn Ho (r' & n' & b & s & H & _). rewrite (owner_at o (OutputOf r n k)) in H; [done|]. done. Qed.
  Lemma used_not_mc s x : safe -> reg t s -> owns s x -> (x ∈ rres s \/ exists n', n' ∈ rnodes s /\ x ∈ nins n') -> ~ mc x.
  Proof using Hwf.
    intros [Hs _] Hr Ho Hx (r & n & b & s' & H & Hk). pose proof (proj1 (owner_of_iff t Hnd _ _) H) as (Hrr & Hn & Hb & Hi).
    assert (Hs' : reg t s') by (eapply reg_sub; [exact Hrr | exact Hn | by eapply elem_of_list_lookup_2]).
    assert (s' = s) as ->. { eapply region_unique; [done | done | left; by eapply elem_of_list_lookup_2 | done]. }
    destruct (Hs r n s x ltac:(by apply reg_region_of) Hn Hk ltac:(by eapply elem_of_list_lookup_2) Hi) as [H1 H2]. destruct Hx as [Hx|(n' & Hn' & Hx)]; [done | by eapply H2].
  Qed.
  Lemma in_not_mc r n x : safe -> reg t r -> n ∈ rnodes r -> x ∈ nins n -> ~ mc x.
  Proof using Hwf. intros Hs Hr Hn Hx. eapply used_not_mc; [done | exact Hr | by eapply ins_owned | eauto]. Qed.
  Lemma res_not_mc r x : safe -> reg t r -> x ∈ rres r -> ~ mc x.
  Proof using Hwf. intros Hs Hr Hx. eapply used_not_mc; [done | exact Hr | by eapply res_owned | eauto]. Qed.

  (** the regions tracing within region s can get to *)
  Inductive phid (s : region) : region -> Prop :=
    | phid_refl : phid s s
    | phid_sub r n r' : phid s r -> n ∈ rnodes r -> nkind n = Phi -> nsubs n = [r'] -> phid s r'.
  Lemma phid_reg s r : reg t s -> phid s r -> reg t r.
  Proof using. clear. intros Hs H. induction H as [|r n r' H IH Hn _ Hs']; [done|]. eapply reg_sub; [exact IH | exact Hn | rewrite Hs'; left]. Qed.

  (** a cache entry says something true *)
  Definition theta_entry (n : node) (k : nat) (z : oid) : Prop :=
    exists s j a y q, nsubs n = [s] /\ rres s !! S k = Some q /\ rargs s !! j = Some a /\ nins n !! j = Some z /\ rres s !! S j = Some y /\ same y a /\ same q a.
  Definition entry (n : node) (k : nat) (o : oid) (x : option oid) : Prop :=
    forall z, x = Some z -> z ∈ nins n /\ same o z /\ (nkind n = Theta -> theta_entry n k z).
  Definition Inv (c : gmap nat (option nat)) : Prop := forall o x, c !! o = Some x -> exists r n k, reg t r /\ n ∈ rnodes r /\ nouts n !! k = Some o /\ entry n k o x.
  Definition grows (c c' : gmap nat (option nat)) (l : list oid) : Prop := forall o, is_Some (c' !! o) -> is_Some (c !! o) \/ o ∈ l.
  Lemma grows_refl c l : grows c c l.
  Proof using. clear. intros o H. auto. Qed.
  Lemma grows_trans c c' c'' l l' : grows c c' l -> grows c' c'' l' -> grows c c'' (l ++ l').
  Proof using. clear. intros H1 H2 o Ho. destruct (H2 o Ho) as [H|H]; [destruct (H1 o H)|]; rewrite ?elem_of_app; auto. Qed.
  Lemma grows_mono c c' (l l' : list oid) : (forall x, x ∈ l -> x ∈ l') -> grows c c' l -> grows c c' l'.
  Proof using. clear. intros H1 H2 o Ho. destruct (H2 o Ho); auto. Qed.
  Lemma entry_at c o x r n k : Inv c -> c !! o = Some x -> reg t r -> n ∈ rnodes r -> nouts n !! k = Some o -> entry n k o x.
  Proof using Hwf.
    intros Hi Hc Hr Hn Ho. destruct (Hi o x Hc) as (r' & n' & k' & Hr' & Hn' & Ho' & He). assert (E : OutputOf r n k = OutputOf r' n' k') by (eapply (owner_fun t Hnd o); done). by injection E as -> -> ->.
  Qed.
  Lemma insert_ok r n k o x c (l : list oid) : Inv c -> caching cfg = false \/ c !! o = None -> reg t r -> n ∈ rnodes r -> nouts n !! k = Some o -> entry n k o x ->
    exists c', insert_in_cache cfg o x c = Done (x, c') /\ Inv c' /\ grows c c' (norder n).
  Proof using.
    clear. intros Hi Hc Hr Hn Ho He. unfold insert_in_cache. destruct (caching cfg); [|exists c; split; [done|]; split; [done | apply grows_refl]].
    destruct Hc as [?|Hc]; [done|]. rewrite Hc. exists (<[o:=x]> c). split; [done|]. split.
    - intros o' x' H. destruct (decide (o' = o)) as [->|]; [rewrite lookup_insert in H; injection H as <-; eauto 10|]. rewrite lookup_insert_ne in H by done. by apply Hi.
    - intros o' H. destruct (decide (o' = o)) as [->|]; [right; apply out_norder; by eapply elem_of_list_lookup_2|]. rewrite lookup_insert_ne in H by done. auto.
  Qed.

  Definition RA (rec : option (nat * nat) -> oid -> gmap nat (option nat) -> outcome (oid * gmap nat (option nat))) (F : nat) : Prop :=
    forall r n b s r0 o c, reg t r -> n ∈ rnodes r -> nsubs n !! b = Some s -> phid s r0 -> owns r0 o -> rank t o < F -> Inv c ->
    match rec (Some (nid n, b)) o c with
    | Done (y, c') => (exists r1, phid s r1 /\ owns r1 y) /\ same o y /\ Inv c' /\ grows c c' (rorder s) /\ (safe -> ~ mc o -> ~ mc y)
    | Failed => ~ (safe /\ ~ mc o)
    | Fuel => False
    end.

  Section Rec.
    Context rec F (HRA : RA rec F).
    (** tracing the origin of a result, or not *)
    Lemma inner_ok r n b s k x c : reg t r -> n ∈ rnodes r -> nsubs n !! b = Some s -> rres s !! k = Some x -> rank t x < F -> Inv c ->
      match (if deep cfg then rec (Some (nid n, b)) x c else Done (x, c)) with
      | Done (y, c') => (exists r1, phid s r1 /\ owns r1 y) /\ same x y /\ Inv c' /\ grows c c' (rorder s) /\ (safe -> ~ mc y)
      | Failed => ~ safe
      | Fuel => False
      end.
    Proof using Hwf HRA.
      intros Hr Hn Hb Hx HF Hi. assert (Hs : reg t s) by (eapply reg_sub; [exact Hr | exact Hn | by eapply elem_of_list_lookup_2]). apply elem_of_list_lookup_2 in Hx.
      pose proof (res_owned s x Hs Hx) as Ho. assert (Hm : safe -> ~ mc x) by (intros; by eapply res_not_mc). destruct (deep cfg).
      - specialize (HRA r n b s s x c Hr Hn Hb (phid_refl s) Ho HF Hi). destruct (rec _ x c) as [[y c']| |]; [|tauto|done]. destruct HRA as (H1 & H2 & H3 & H4 & H5). auto 10.
      - split; [exists s; split; [constructor | done]|]. split; [apply same_refl|]. split; [done|]. split; [apply grows_refl | done].
    Qed.
    (** an argument of a subregion of n that was reached by tracing within it belongs to it *)
    Lemma reached r n b s r1 y r' n' b' s' i : reg t r -> n ∈ rnodes r -> nkind n <> Phi -> nsubs n !! b = Some s -> phid s r1 -> owns r1 y ->
      owner_of t y = Some (ArgumentOf r' n' b' s' i) -> nid n' = nid n -> n' = n /\ r' = r /\ s' = s /\ rargs s !! i = Some y.
    Proof using Hwf.
      clear HRA. intros Hr Hn Hk Hb Hp Ho H Hid. pose proof (proj1 (owner_of_iff t Hnd _ _) H) as (Hr' & Hn' & Hb' & Hi).
      assert (n' = n) as ->. { eapply id_unique; [exact Hr' | exact Hn' | exact Hr | exact Hn | done]. }
      assert (Hs : reg t s) by (eapply reg_sub; [exact Hr | exact Hn | by eapply elem_of_list_lookup_2]). assert (Hs' : reg t s') by (eapply reg_sub; [exact Hr' | exact Hn' | by eapply elem_of_list_lookup_2]).
      assert (s' = r1) as ->. { eapply region_unique; [exact Hs' | by apply (phid_reg s) | left; by eapply elem_of_list_lookup_2 | exact Ho]. }
      destruct Hp as [|q m r1 Hp Hm Hkm Hsm].
      - assert (E : ArgumentOf r' n b' s i = ArgumentOf r n b s i) by (by apply (owner_fun t Hnd y)). injection E as -> ->. done.
      - exfalso. apply Hk. rewrite <-Hkm. f_equal. assert (E : ArgumentOf r' n b' r1 i = ArgumentOf q m 0 r1 i); [|by injection E].
        apply (owner_fun t Hnd y); [done|]. split; [by apply (phid_reg s)|]. split; [done|]. split; [by rewrite Hsm | done].
    Qed.
    Lemma branches_ok r n k o : reg t r -> n ∈ rnodes r -> nkind n = Gamma -> nouts n !! k = Some o -> rank t o <= F ->
      forall subs pre common c, nsubs n = pre ++ subs -> Inv c ->
      match gamma_branches cfg t rec n k (length pre) subs common c with
      | Done (x, c') => Inv c' /\ grows c c' (mjoin (map (fun s => rargs s ++ rorder s) subs)) /\
          (forall z, x = Some z -> z ∈ nins n \/ common = Some z /\ subs = []) /\ (forall z z', x = Some z -> common = Some z' -> z = z') /\
          (forall z s, x = Some z -> s ∈ subs -> exists q a i, rres s !! k = Some q /\ same q a /\ rargs s !! S i = Some a /\ nins n !! S i = Some z)
      | Failed => ~ (safe /\ (subs <> [] \/ common <> None))
      | Fuel => False
      end.
    Proof using Hwf HRA.
      intros Hr Hn Hk Ho HF subs. assert (Hsh : Forall (fun s => length (rargs s) = length (nins n) /\ length (rres s) = length (nouts n)) (nsubs n)).
      { pose proof (wfn t Hw r n Hr Hn) as Hwn. destruct n as [id kk ins outs sb]. cbn [nkind] in Hk. subst kk. apply wf_node_unfold in Hwn as [[_ Hsh] _]. done. }
      induction subs as [|s subs IH]; intros pre common c Hsp Hi; cbn [gamma_branches].
      - destruct common as [x|]; [|intros [_ [?|?]]; done]. split; [done|]. split; [apply grows_refl|]. split; [intros z [= ->]; auto|]. split; [congruence|]. intros z s _ H. by apply elem_of_nil in H.
      - assert (Hb : nsubs n !! length pre = Some s). { rewrite Hsp. rewrite lookup_app_r by lia. by rewrite Nat.sub_diag. }
        pose proof (elem_of_list_lookup_2 _ _ _ Hb) as Hsin. assert (Hs : reg t s) by (eapply reg_sub; [exact Hr | exact Hn | done]). rewrite Forall_forall in Hsh. destruct (Hsh s Hsin) as [Hla Hlr].
        destruct (rres s !! k) as [q|] eqn:Eq; [|apply lookup_ge_None in Eq; apply lookup_lt_Some in Ho; lia].
        assert (HqF : rank t q < F). { assert (rank t q < rank t o); [|lia]. eapply (rank_sub t Hnd r n s); [done | done | done | apply (res_rorder t Hw); [done | by eapply elem_of_list_lookup_2] | by eapply elem_of_list_lookup_2]. }
        pose proof (inner_ok r n (length pre) s k q c Hr Hn Hb Eq HqF Hi) as Hin. destruct (if deep cfg then _ else _) as [[y c']| |]; cbn [obind]; [|tauto|done].
        destruct Hin as ((r1 & Hp & Hown) & Hsame & Hi' & Hg & Hmc).
        assert (Hg1 : grows c c' (mjoin (map (fun s => rargs s ++ rorder s) (s :: subs)))). { eapply grows_mono; [|exact Hg]. intros x Hx. cbn [map]. change (mjoin (?x :: ?y)) with (x ++ mjoin y). rewrite !elem_of_app. auto. }
        assert (Hnone : Inv c' /\ grows c c' (mjoin (map (fun s => rargs s ++ rorder s) (s :: subs))) /\
          (forall z, None = Some z -> z ∈ nins n \/ common = Some z /\ s :: subs = []) /\ (forall z z', None = Some z -> common = Some z' -> z = z') /\
          (forall z s0, None = Some z -> s0 ∈ s :: subs -> exists q a i, rres s0 !! k = Some q /\ same q a /\ rargs s0 !! S i = Some a /\ nins n !! S i = Some z)) by done.
        destruct (owner_of t y) as [[|r' n' b' s' i|]|] eqn:Eo; try done. destruct (decide (nid n' = nid n)) as [Hid|]; [|done].
        destruct (reached r n (length pre) s r1 y r' n' b' s' i Hr Hn ltac:(by rewrite Hk) Hb Hp Hown Eo Hid) as (-> & -> & -> & Hy). destruct i as [|i]; cbn [map_branch_argument obind].
        { intros [Hsafe _]. apply (Hmc Hsafe). exists r, n, b', s. done. }
        destruct (nins n !! S i) as [z|] eqn:Ez; [|apply lookup_ge_None in Ez; apply lookup_lt_Some in Hy; lia]. cbn [obind].
        assert (Hrest : forall com, (common = None /\ com = Some z) \/ (common = Some z /\ com = Some z) ->
          match gamma_branches cfg t rec n k (S (length pre)) subs com c' with
          | Done (x, c'') => Inv c'' /\ grows c c'' (mjoin (map (fun s => rargs s ++ rorder s) (s :: subs))) /\
             (forall z, x = Some z -> z ∈ nins n \/ common = Some z /\ s :: subs = []) /\ (forall z z', x = Some z -> common = Some z' -> z = z') /\
             (forall z s0, x = Some z -> s0 ∈ s :: subs -> exists q a i, rres s0 !! k = Some q /\ same q a /\ rargs s0 !! S i = Some a /\ nins n !! S i = Some z)
          | Failed => ~ (safe /\ (s :: subs <> [] \/ common <> None))
          | Fuel => False
          end).
        { intros com Hcom. specialize (IH (pre ++ [s]) com c'). rewrite app_length in IH. cbn [length] in IH. replace (length pre + 1) with (S (length pre)) in IH by lia.
          rewrite <-app_assoc in IH. specialize (IH Hsp Hi'). destruct (gamma_branches _ _ _ _ _ _ _ _ _) as [[x c'']| |]; [|intros [Hsafe _]; apply IH; split; [done|]; right; by destruct Hcom as [[_ ->]|[_ ->]]|done].
          destruct IH as (G1 & G2 & G3 & G4 & G5). split; [done|]. split.
          { cbn [map]. change (mjoin (?x :: ?y)) with (x ++ mjoin y). eapply grows_mono; [|eapply grows_trans; [exact Hg | exact G2]]. intros u. rewrite !elem_of_app. tauto. }
          assert (Hcz : com = Some z) by (by destruct Hcom as [[_ ?]|[_ ?]]).
          assert (Hxz : forall z0, x = Some z0 -> z0 = z). { intros z0 ->. by apply (G4 z0 z). }
          split; [intros z0 ->; left; rewrite (Hxz z0 eq_refl); by eapply elem_of_list_lookup_2|]. split.
          - intros z0 z' -> E. rewrite (Hxz z0 eq_refl). destruct Hcom as [[E' _]|[E' _]]; congruence.
          - intros z0 s0 -> [->|H0]%elem_of_cons; [|by apply (G5 z0 s0)]. rewrite (Hxz z0 eq_refl). exists q, y, i. done. }
        destruct common as [z'|]; [|apply Hrest; auto]. destruct (decide (z' = z)) as [->|]; [|done]. apply Hrest. auto.
    Qed.
    Lemma try_gamma_ok r n k o c : reg t r -> n ∈ rnodes r -> nkind n = Gamma -> nouts n !! k = Some o -> rank t o <= F -> Inv c ->
      match try_gamma cfg t rec n k o c with
      | Done (x, c') => entry n k o x /\ Inv c' /\ grows c c' (norder n)
      | Failed => ~ safe
      | Fuel => False
      end.
    Proof using Hwf HRA.
      intros Hr Hn Hk Ho HF Hi. unfold try_gamma. destruct (lookup_in_cache cfg o c) as [x|] eqn:El.
      - unfold lookup_in_cache in El. destruct (caching cfg); [|done]. split; [by eapply entry_at|]. split; [done | apply grows_refl].
      - pose proof (branches_ok r n k o Hr Hn Hk Ho HF (nsubs n) [] None c eq_refl Hi) as Hb. cbn [length] in Hb.
        destruct (gamma_branches _ _ _ _ _ _ _ _ _) as [[x c']| |]; cbn [obind]; [|intros Hs; apply Hb; split; [done|]; left; destruct Hs as [_ Hs]; eapply Hs; [by apply reg_region_of | done | done] | done].
        destruct Hb as (Hi' & Hg & H3 & H4 & H5). assert (He : entry n k o x).
        { intros z ->. destruct (H3 z eq_refl) as [Hz|[? _]]; [|done]. split; [done|]. split; [|by rewrite Hk]. eapply (gamma_node ctl content sem addr imp t Hw Hnd r n Hr Hn k); [done | done|]. intros s Hs. by apply (H5 z s). }
        assert (Hc : caching cfg = false \/ c' !! o = None).
        { unfold lookup_in_cache in El. destruct (caching cfg); [|by left]. right. destruct (c' !! o) eqn:E; [|done]. exfalso. destruct (Hg o ltac:(eauto)) as [[? H]|H]; [congruence|].
          pose proof (order_nodup t Hnd) as Hod. destruct (reg_order t r Hr) as (l1 & l2 & Hord). rewrite Hord in Hod. apply NoDup_app in Hod as (_ & _ & Hod). apply NoDup_app in Hod as (Hod & _ & _). apply NoDup_app in Hod as (_ & _ & Hod).
          rewrite rorder_unfold in Hod. pose proof (NoDup_mjoin_elem _ _ _ Hod Hn) as Hod'. rewrite norder_unfold in Hod'. apply NoDup_app in Hod' as (_ & Hd & _). apply (Hd o H). by eapply elem_of_list_lookup_2. }
        destruct (insert_ok r n k o x c' [] Hi' Hc Hr Hn Ho He) as (c'' & -> & Hi'' & Hg'). split; [done|]. split; [done|]. eapply grows_mono; [|eapply grows_trans; [exact Hg | exact Hg']].
        intros u. rewrite norder_unfold, !elem_of_app. tauto.
    Qed.
    Lemma try_theta_ok r n k o c : reg t r -> n ∈ rnodes r -> nkind n = Theta -> nouts n !! k = Some o -> rank t o <= F -> Inv c ->
      match try_theta cfg t rec n k o c with
      | Done (x, c') => entry n k o x /\ Inv c' /\ grows c c' (norder n)
      | Failed => ~ safe
      | Fuel => False
      end.
    Proof using Hwf HRA.
      intros Hr Hn Hk Ho HF Hi. unfold try_theta. destruct (lookup_in_cache cfg o c) as [x|] eqn:El.
      - unfold lookup_in_cache in El. destruct (caching cfg); [|done]. split; [by eapply entry_at|]. split; [done | apply grows_refl].
      - assert (Hsh : exists s, nsubs n = [s] /\ length (rargs s) = length (nins n) /\ length (nins n) = length (nouts n) /\ length (rres s) = S (length (nouts n))).
        { pose proof (wfn t Hw r n Hr Hn) as Hwn. destruct n as [id kk ins outs sb]. cbn [nkind] in Hk. subst kk. apply wf_node_unfold in Hwn as [Hsh _]. done. }
        destruct Hsh as (s & Hsub & H1 & H2 & H3). rewrite Hsub. cbn [lookup list_lookup]. pose proof (lookup_lt_Some _ _ _ Ho) as Hlt.
        destruct (lookup_lt_is_Some_2 (rres s) (S k)) as [q Hq]; [lia|]. destruct (lookup_lt_is_Some_2 (rargs s) k) as [a Ha]; [lia|]. destruct (lookup_lt_is_Some_2 (nins n) k) as [x Hx]; [lia|].
        rewrite Hq, Ha, Hx. assert (Hb : nsubs n !! 0 = Some s) by (by rewrite Hsub). assert (Hs : reg t s) by (eapply reg_sub; [exact Hr | exact Hn | by eapply elem_of_list_lookup_2]).
        assert (HqF : rank t q < F). { assert (rank t q < rank t o); [|lia]. eapply (rank_sub t Hnd r n s); [done | done | rewrite Hsub; left | apply (res_rorder t Hw); [done | by eapply elem_of_list_lookup_2] | by eapply elem_of_list_lookup_2]. }
        pose proof (inner_ok r n 0 s (S k) q c Hr Hn Hb Hq HqF Hi) as Hin. destruct (if deep cfg then _ else _) as [[y c']| |]; cbn [obind]; [|tauto|done].
        destruct Hin as ((r1 & Hp & Hown) & Hsame & Hi' & Hg & Hmc).
        assert (Hg1 : grows c c' (norder n)). { eapply grows_mono; [|exact Hg]. intros u Hu. eapply sub_norder; [rewrite Hsub; left | apply elem_of_app; by right]. }
        assert (Hc : caching cfg = false \/ c' !! o = None).
        { unfold lookup_in_cache in El. destruct (caching cfg); [|by left]. right. destruct (c' !! o) eqn:E; [|done]. exfalso. destruct (Hg o ltac:(eauto)) as [[? H]|H]; [congruence|].
          assert (rank t o < rank t o); [|lia]. eapply (rank_sub t Hnd r n s); [done | done | rewrite Hsub; left | apply elem_of_app; by right | by eapply elem_of_list_lookup_2]. }
        assert (Hins : forall u, entry n k o u -> match insert_in_cache cfg o u c' with Done (x, c') => entry n k o x /\ Inv c' /\ grows c c' (norder n) | Failed => ~ safe | Fuel => False end).
        { intros u He. destruct (insert_ok r n k o u c' [] Hi' Hc Hr Hn Ho He) as (c'' & -> & Hi'' & Hg'). split; [done|]. split; [done|]. eapply grows_mono; [|eapply grows_trans; [exact Hg1 | exact Hg']]. intros v. rewrite elem_of_app. tauto. }
        assert (Hen : entry n k o None) by done.
        assert (Hes : forall j a z y0, rargs s !! j = Some a -> nins n !! j = Some z -> rres s !! S j = Some y0 -> same y0 a -> same q a -> entry n k o (Some z)).
        { intros j a0 z y0 G1 G2 G3 G4 G5 z0 [= <-]. split; [by eapply elem_of_list_lookup_2|]. split.
          - eapply (theta_node ctl content sem addr imp t Hw Hnd r n Hr Hn k o s j a0 z y0 q); done.
          - intros _. exists s, j, a0, y0, q. done. }
        destruct (decide (y = a)) as [->|Hya]; [apply Hins; by apply (Hes k a x q)|].
        destruct (owner_of t y) as [[|r' n' b' s' j|]|] eqn:Eo; try by apply Hins. destruct (decide (nid n' = nid n)) as [Hid|]; [|by apply Hins].
        destruct (reached r n 0 s r1 y r' n' b' s' j Hr Hn ltac:(by rewrite Hk) Hb Hp Hown Eo Hid) as (-> & -> & -> & Hy). pose proof (lookup_lt_Some _ _ _ Hy) as Hltj.
        destruct (lookup_lt_is_Some_2 (rres s) (S j)) as [q' Hq']; [lia|]. destruct (lookup_lt_is_Some_2 (nins n) j) as [x' Hx']; [lia|]. rewrite Hq', Hx'.
        destruct (decide (q' = y)) as [->|]; [|by apply Hins]. apply Hins. apply (Hes j y x' y); try done. apply same_refl.
    Qed.
    (** traceStep at an output of a node *)
    Lemma out_step r n k o w c : reg t r -> n ∈ rnodes r -> nouts n !! k = Some o -> rank t o <= F -> Inv c ->
      match base_step cfg t rec w o c with
      | Done (x, c') => (owns r x \/ exists s, nkind n = Phi /\ nsubs n = [s] /\ owns s x) /\ same o x /\ (x = o \/ rank t x < rank t o) /\ Inv c' /\ grows c c' (norder n) /\ (safe -> ~ mc x)
      | Failed => ~ safe
      | Fuel => False
      end.
    Proof using Hwf HRA.
      intros Hr Hn Ho HF Hi. unfold base_step. rewrite (owner_at o (OutputOf r n k)) by done. pose proof (elem_of_list_lookup_2 _ _ _ Ho) as Hoin.
      assert (Hself : forall c', Inv c' -> grows c c' (norder n) -> (owns r o \/ exists s, nkind n = Phi /\ nsubs n = [s] /\ owns s o) /\ same o o /\ (o = o \/ rank t o < rank t o) /\ Inv c' /\ grows c c' (norder n) /\ (safe -> ~ mc o)).
      { intros c' Hi' Hg. split; [left; right; eauto|]. split; [apply same_refl|]. split; [by left|]. split; [done|]. split; [done|]. intros _. by eapply output_not_mc. }
      pose proof (Hself c Hi (grows_refl c _)) as Hself0.
      assert (Hent : forall x c', entry n k o x -> Inv c' -> grows c c' (norder n) -> (owns r (or_else x o) \/ exists s, nkind n = Phi /\ nsubs n = [s] /\ owns s (or_else x o)) /\ same o (or_else x o) /\
        (or_else x o = o \/ rank t (or_else x o) < rank t o) /\ Inv c' /\ grows c c' (norder n) /\ (safe -> ~ mc (or_else x o))).
      { intros [z|] c' He Hi' Hg; [|by apply Hself]. destruct (He z eq_refl) as (Hz & Hsame & _). cbn [or_else]. split; [left; by eapply ins_owned|]. split; [done|]. split; [right; eapply (rank_in t Hw Hnd r n); [done | done | done | by apply out_norder]|].
        split; [done|]. split; [done|]. intros Hsf. by eapply in_not_mc. }
      destruct (nkind n) as [op|op| | |m| |] eqn:Ek; try done.
      - pose proof (try_gamma_ok r n k o c Hr Hn Ek Ho HF Hi) as H. destruct (try_gamma _ _ _ _ _ _ _) as [[x c']| |]; [|done|done]. cbn [obind]. destruct H as (H1 & H2 & H3). by apply Hent.
      - pose proof (try_theta_ok r n k o c Hr Hn Ek Ho HF Hi) as H. destruct (try_theta _ _ _ _ _ _ _) as [[x c']| |]; [|done|done]. cbn [obind]. destruct H as (H1 & H2 & H3). by apply Hent.
      - destruct (interproc cfg && enter_phi cfg); [|done].
        assert (Hsh : exists s, nsubs n = [s] /\ length (rres s) = length (nouts n)).
        { pose proof (wfn t Hw r n Hr Hn) as Hwn. destruct n as [id kk ins outs sb]. cbn [nkind] in Ek. subst kk. apply wf_node_unfold in Hwn as [(s & -> & _ & Hl) _]. exists s. done. }
        destruct Hsh as (s & Hsub & Hl). rewrite Hsub. pose proof (lookup_lt_Some _ _ _ Ho) as Hlt. destruct (lookup_lt_is_Some_2 (rres s) k) as [x Hx]; [lia|]. rewrite Hx.
        assert (Hs : reg t s) by (eapply reg_sub; [exact Hr | exact Hn | rewrite Hsub; left]). pose proof (elem_of_list_lookup_2 _ _ _ Hx) as Hxin.
        split; [right; exists s; split; [done|]; split; [done|]; by apply res_owned|]. split; [by apply (phi_node ctl content sem addr imp t Hnd r n Hr Hn s k o x Ek Hsub Ho Hx)|].
        split; [right; eapply (rank_sub t Hnd r n s); [done | done | rewrite Hsub; left | by apply (res_rorder t Hw) | done]|]. split; [done|]. split; [apply grows_refl|]. intros Hsf. by eapply res_not_mc.
    Qed.
    (** the additional step of the LLVM tracer *)
    Definition llvm_part (x : oid) (c : gmap nat (option nat)) : outcome (oid * gmap nat (option nat)) :=
      if llvm cfg then
        match owner_of t x with
        | Some (OutputOf _ n k) =>
            match nkind n with
            | Simple op => if barrier cfg op then match nins n !! 0 with Some y => Done (y, c) | None => Failed end else Done (x, c)
            | Load _ => if loaded cfg && bool_decide (0 < k) then match nins n !! k with Some y => Done (y, c) | None => Failed end else Done (x, c)
            | _ => Done (x, c)
            end
        | _ => Done (x, c)
        end
      else Done (x, c).
    Lemma llvm_ok r x c : reg t r -> owns r x -> exists y, llvm_part x c = Done (y, c) /\ owns r y /\ same x y /\ (y = x \/ rank t y < rank t x) /\ (safe -> ~ mc x -> ~ mc y).
    Proof using Hwf Hload Hbar Hshape.
      clear HRA. intros Hr Ho. unfold llvm_part. assert (Hself : exists y, Done (x, c) = Done (y, c) /\ owns r y /\ same x y /\ (y = x \/ rank t y < rank t x) /\ (safe -> ~ mc x -> ~ mc y)).
      { exists x. split; [done|]. split; [done|]. split; [apply same_refl|]. auto. }
      destruct (llvm cfg); [|done]. destruct (owns_owner r x Hr Ho) as [(n & k & Hn & Hk & ->)|[(_ & _ & ->)|(? & ? & ? & ? & _ & _ & _ & _ & ->)]]; [|done|done].
      assert (Hstep : forall j y, nins n !! j = Some y -> same x y -> exists y0, Done (y, c) = Done (y0, c) /\ owns r y0 /\ same x y0 /\ (y0 = x \/ rank t y0 < rank t x) /\ (safe -> ~ mc x -> ~ mc y0)).
      { intros j y Hj Hs. apply elem_of_list_lookup_2 in Hj. exists y. split; [done|]. split; [by eapply ins_owned|]. split; [done|]. split; [right; eapply (rank_in t Hw Hnd r n); [done | done | done | apply out_norder; by eapply elem_of_list_lookup_2]|].
        intros Hsf _. by eapply in_not_mc. }
      destruct (nkind n) as [op|op| | |m| |] eqn:Ek; try done.
      - destruct (barrier cfg op) eqn:Eb; [|done]. destruct (Hshape r n op Hr Hn Ek Eb) as [Hl1 Hne]. destruct (nins n !! 0) as [y|] eqn:E0; [|destruct (nins n); done].
        apply (Hstep 0); [done|]. assert (k = 0) as -> by (apply lookup_lt_Some in Hk; lia). apply (simple_node ctl content sem addr imp t Hnd r n Hr Hn false op 0 0 x y); [done | done | done|]. intros vs ws. by apply Hbar.
      - destruct (loaded cfg) eqn:Elo; [|done]. cbn [andb]. case_bool_decide; [|done].
        assert (Hl : length (nins n) = length (nouts n)). { pose proof (wfn t Hw r n Hr Hn) as Hwn. destruct n as [id kk ins outs sb]. cbn [nkind] in Ek. subst kk. apply wf_node_unfold in Hwn as [[_ Hl] _]. done. }
        destruct (lookup_lt_is_Some_2 (nins n) k) as [y Hy]; [apply lookup_lt_Some in Hk; lia|]. rewrite Hy. apply (Hstep k); [done|].
        apply (simple_node ctl content sem addr imp t Hnd r n Hr Hn true op k k x y); [done | done | done|]. intros vs ws Hsem. destruct k as [|k]; [lia|].
        pose proof (node_out_def t r n (S k) x Hr Hn Hk) as Hd. rewrite Ek in Hd. cbn [out_view] in Hd. by eapply (Hload eq_refl).
    Qed.
    (** traceStep at a context variable *)
    Lemma ctx_step r n b s i o c : reg t r -> n ∈ rnodes r -> nsubs n !! b = Some s -> rargs s !! i = Some o -> forall x,
      (exists m, nkind n = Lambda m /\ m <= i /\ nins n !! (i - m) = Some x) \/ (nkind n = Delta /\ nins n !! i = Some x) \/ (nkind n = Phi /\ length (rres s) <= i /\ nins n !! (i - length (rres s)) = Some x) ->
      owns r x /\ same o x /\ (forall e e' v, ev ctl content sem addr imp t e o v -> ev ctl content sem addr imp t e' x v) /\ rank t x < rank t o /\ (safe -> ~ mc x) /\ grows c c (norder n).
    Proof using Hwf.
      clear HRA. intros Hr Hn Hb Ho x Hx. pose proof (elem_of_list_lookup_2 _ _ _ Hb) as Hs. assert (Hin : x ∈ nins n) by (destruct Hx as [(m & _ & _ & H)|[(_ & H)|(_ & _ & H)]]; by eapply elem_of_list_lookup_2).
      destruct (ctx_node ctl content sem addr imp t Hnd r n Hr Hn s i o x Hs Ho Hx) as [H1 H2]. split; [by eapply ins_owned|]. split; [done|]. split; [done|]. split.
      - eapply (rank_in t Hw Hnd r n); [done | done | done|]. eapply sub_norder; [exact Hs|]. apply elem_of_app. left. by eapply elem_of_list_lookup_2.
      - split; [|apply grows_refl]. intros Hsf. by eapply in_not_mc.
    Qed.
  End Rec.
  Lemma trace_step_eq rec w o c : trace_step cfg t rec w o c = (let! (x, c) := base_step cfg t rec w o c in llvm_part x c).
  Proof using. clear. done. Qed.
  (** tracing within a region stays within it *)
  Lemma within_ok F : RA (trace_fuel cfg t F) F.
  Proof using Hwf Hload Hbar Hshape.
    induction F as [|F IH]; intros r n b s r0 o c Hr Hn Hb Hp Ho HF Hi; [lia|]. cbn [trace_fuel]. rewrite trace_step_eq.
    assert (Hs : reg t s) by (eapply reg_sub; [exact Hr | exact Hn | by eapply elem_of_list_lookup_2]). assert (Hr0 : reg t r0) by (by apply (phid_reg s)).
    set (B := base_step cfg t (trace_fuel cfg t F) (Some (nid n, b)) o c).
    assert (HB : match B with
      | Done (x, c') => (exists r1, phid s r1 /\ owns r1 x) /\ same o x /\ (x = o \/ rank t x < rank t o) /\ Inv c' /\ grows c c' (rorder s) /\ (safe -> ~ mc o -> ~ mc x)
      | Failed => ~ (safe /\ ~ mc o)
      | Fuel => False
      end).
    { unfold B. clear B. destruct (owns_owner r0 o Hr0 Ho) as [(m & k & Hm & Hk & Hown)|[(-> & Hin & Hown)|(q & m & b' & i & Hq & Hm & Hb' & Hi' & Hown)]].
      - pose proof (out_step _ F IH r0 m k o (Some (nid n, b)) c Hr0 Hm Hk ltac:(lia) Hi) as H. destruct (base_step _ _ _ _ _ _) as [[x c']| |]; [|tauto|done].
        destruct H as (H1 & H2 & H3 & H4 & H5 & H6). split; [destruct H1 as [H1|(s1 & Hk1 & Hs1 & H1)]; [eauto | exists s1; split; [by eapply phid_sub | done]]|]. split; [done|]. split; [done|]. split; [done|]. split; [|auto].
        eapply grows_mono; [|exact H5]. intros u Hu. clear -Hp Hm Hu. assert (Hu' : u ∈ rorder r0) by (rewrite rorder_unfold; apply elem_of_mjoin_map; eauto). clear Hm Hu.
        induction Hp as [|r1 n1 r1' Hp IHp Hn1 _ Hs1]; [done|]. apply IHp. rewrite rorder_unfold. apply elem_of_mjoin_map. exists n1. split; [done|]. apply (sub_norder n1 r1'); [rewrite Hs1; left | apply elem_of_app; by right].
      - unfold base_step. rewrite Hown. split; [eauto|]. split; [apply same_refl|]. split; [by left|]. split; [done|]. split; [apply grows_refl | done].
      - unfold base_step. rewrite Hown. assert (Hstay : (exists r1, phid s r1 /\ owns r1 o) /\ same o o /\ (o = o \/ rank t o < rank t o) /\ Inv c /\ grows c c (rorder s) /\ (safe -> ~ mc o -> ~ mc o)).
        { split; [eauto|]. split; [apply same_refl|]. split; [by left|]. split; [done|]. split; [apply grows_refl | done]. }
        case_decide as Hid; [done|]. destruct Hp as [|r1 n1 r1' Hp Hn1 Hk1 Hs1].
        + exfalso. assert (E : ArgumentOf q m b' s i = ArgumentOf r n b s i) by (by apply (owner_fun t Hnd o)). injection E as -> -> ->. done.
        + assert (E : ArgumentOf q m b' r1' i = ArgumentOf r1 n1 0 r1' i). { apply (owner_fun t Hnd o); [done|]. split; [by apply (phid_reg s)|]. split; [done|]. by rewrite Hs1. }
          injection E as -> -> ->. rewrite Hk1. destruct (interproc cfg); [|done]. cbn [andb]. case_bool_decide as Hle; [|done].
          assert (Hl : length (rargs r1') = length (nouts n1) + length (nins n1) /\ length (rres r1') = length (nouts n1)).
          { pose proof (wfn t Hw r1 n1 Hq Hm) as Hwn. destruct n1 as [id kk ins outs sb]. cbn [nkind] in Hk1. subst kk. apply wf_node_unfold in Hwn as [(s1 & Hs1' & Hl1 & Hl2) _]. cbn [nsubs] in Hs1. rewrite Hs1 in Hs1'. injection Hs1' as <-. done. }
          destruct (lookup_lt_is_Some_2 (nins n1) (i - length (rres r1'))) as [x Hx]; [apply lookup_lt_Some in Hi'; lia|]. rewrite Hx.
          destruct (ctx_step r1 n1 0 r1' i o c Hq Hm Hb' Hi' x ltac:(auto)) as (H1 & H2 & _ & H3 & H4 & _). split; [eauto|]. split; [done|]. split; [by right|]. split; [done|]. split; [apply grows_refl | auto]. }
    destruct B as [[x c']| |]; cbn [obind]; [|done|done]. destruct HB as ((r1 & Hp1 & Hx) & H2 & H3 & H4 & H5 & H6).
    destruct (llvm_ok r1 x c' ltac:(by apply (phid_reg s)) Hx) as (y & -> & Hy & G2 & G3 & G4). cbn [obind]. destruct (decide (y = o)) as [->|Hyo].
    - split; [eauto|]. split; [apply same_refl|]. split; [done|]. split; [done | auto].
    - assert (Hlt : rank t y < F). { destruct H3 as [->|H3], G3 as [->|G3]; try done; lia. }
      specialize (IH r n b s r1 y c' Hr Hn Hb Hp1 Hy Hlt H4). destruct (trace_fuel cfg t F _ y c') as [[z c'']| |]; [|intros [G6 G7]; apply IH; split; [done|]; auto|done].
      destruct IH as (I1 & I2 & I3 & I4 & I5). split; [done|]. split; [eapply same_trans; [|exact I2]; by eapply same_trans|]. split; [done|]. split; [|auto].
      eapply grows_mono; [|eapply grows_trans; [exact H5 | exact I4]]. intros u. rewrite elem_of_app. tauto.
  Qed.
End Step.
