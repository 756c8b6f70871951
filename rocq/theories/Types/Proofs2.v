From Coq Require Import ZArith Lia String.
From stdpp Require Import base list.
From Verif.MathUtil Require Import Model Spec Properties.
From Verif.Types Require Import Model Spec Proofs.
Local Open Scope Z_scope.

Lemma plain_align_bound t : fits t -> plain_align t <= 2 ^ 60.
Proof.
  induction t as [n| |n t IH|s| |name p l f IH|s n t IH| | |a r _ _] using ty_ind'; intros H; inversion H as [? H0 H1| |? ? H0 Ht H1| |? ? ? ? Hl H1|? ? ? H0 Ht H1|]; subst; unfold plain_align, plain_store in *; try (cbn; lia).
  - cbn [plain fst snd] in *. apply pow2_ceil_bound; [lia | done].
  - rewrite plain_array. cbn [snd]. by apply IH.
  - destruct s; vm_compute; discriminate.
  - rewrite plain_struct. cbn [snd]. unfold max_align. destruct p; [lia|]. clear -IH Hl. induction f as [|t f IHf]; cbn; [lia|]. inversion IH as [|? ? I1 I2]; subst. inversion Hl as [|? ? L1 L2]; subst. specialize (I1 L1). specialize (IHf I2 L2). unfold plain_align in *. lia.
  - rewrite plain_vector in *. cbn [fst snd] in *. by apply pow2_ceil_bound.
Qed.
Lemma plain_store_bound t : fits t -> plain_store t <= 2 ^ 60.
Proof. intros H. inversion H as [| | |f| | |]; subst; try done. destruct f; vm_compute; discriminate. Qed.
Lemma plain_alloc_nonneg t : fits t -> 0 <= plain_alloc t.
Proof. intros H. pose proof (proj1 (plain_store_nonneg t H)). pose proof (ceil_to_ge (plain_store t) (plain_align t) (plain_align_pos t)). unfold plain_alloc. lia. Qed.
Lemma ok_fields l : Forall fits l -> Forall ok_field (map plain_pair l).
Proof. intros H. apply Forall_fmap. eapply Forall_impl; [exact H|]. intros t Ht. split; [by apply plain_alloc_nonneg | apply plain_align_pow]. Qed.
Definition exact (t : ty) : Prop := GetTypeStoreSize t = Some (plain_store t) /\ GetTypeAlignment t = Some (plain_align t) /\ GetTypeAllocSize t = Some (plain_alloc t).
Lemma align1_pow (packed : bool) a : power_of_two a -> power_of_two (if packed then 1 else a).
Proof. intros H. destruct packed; [exists 0; split; [lia | done] | done]. Qed.
Lemma struct_loop_ok packed l : Forall fits l -> Forall exact l -> forall total alignment, 0 <= total -> power_of_two alignment -> alignment <= 2 ^ 60 -> ends packed total (map plain_pair l) <= 2 ^ 60 ->
  exists a, struct_loop packed (map sub_layout l) total alignment = Some (ends packed total (map plain_pair l), a) /\ a = Z.max alignment (max_align packed (map plain_align l)).
Proof.
  intros Hf He. induction He as [|t l (E1 & E2 & E3) El IH]; intros total alignment Ht Ha Hb Hend; cbn [map struct_loop].
  - exists alignment. split; [done|]. unfold max_align. pose proof (pow2_pos _ Ha). destruct packed; cbn; lia.
  - inversion Hf as [|? ? F1 F2]; subst. unfold sub_layout at 1. rewrite E3. cbn [mbind option_bind].
    set (a1 := if packed then 1 else plain_align t). assert (Ea : (if packed then Some 1 else GetTypeAlignment t) = Some a1) by (unfold a1; destruct packed; [done | by rewrite E2]). rewrite Ea. cbn [mbind option_bind].
    assert (Hp : power_of_two a1) by (apply align1_pow, plain_align_pow). pose proof (pow2_pos _ Hp) as Hp0. assert (Hb1 : a1 <= 2 ^ 60) by (unfold a1; destruct packed; [lia | by apply plain_align_bound]).
    pose proof (ceil_to_ge total a1 Hp0) as Hc. pose proof (plain_alloc_nonneg t F1) as Hn.
    change (ends packed (ceil_to total a1 + plain_alloc t) (map plain_pair l) <= 2 ^ 60) in Hend. pose proof (ends_ge packed (ceil_to total a1 + plain_alloc t) _ (ok_fields l F2)) as Hge.
    rewrite round_ok by lia. cbn [mbind option_bind]. unfold lcm64. rewrite pow2_lcm by done. destruct (Z.ltb_spec (Z.max alignment a1) (2 ^ 64)); [|lia]. cbn [mbind option_bind]. unfold add64. rewrite wrap_id by lia.
    destruct (IH F2 (ceil_to total a1 + plain_alloc t) (Z.max alignment a1)) as (a & R1 & R2); [lia | by apply pow2_max | lia | done|]. exists a. split; [exact R1|]. rewrite R2. unfold max_align, a1. destruct packed; cbn; lia.
Qed.
Lemma lcm_loop_ok l : Forall fits l -> Forall exact l -> forall alignment, power_of_two alignment -> alignment <= 2 ^ 60 -> lcm_loop (map GetTypeAlignment l) alignment = Some (Z.max alignment (max_align false (map plain_align l))).
Proof.
  intros Hf He. induction He as [|t l (E1 & E2 & E3) El IH]; intros alignment Ha Hb; cbn [map lcm_loop].
  - pose proof (pow2_pos _ Ha). unfold max_align. cbn. f_equal. lia.
  - inversion Hf as [|? ? F1 F2]; subst. rewrite E2. cbn [mbind option_bind]. unfold lcm64. pose proof (plain_align_pow t) as Hp. rewrite pow2_lcm by done. pose proof (plain_align_bound t F1). destruct (Z.ltb_spec (Z.max alignment (plain_align t)) (2 ^ 64)); [|lia]. cbn [mbind option_bind].
    rewrite IH; [|done | by apply pow2_max | lia]. f_equal. unfold max_align. cbn. lia.
Qed.
Lemma max_align_bound packed l : Forall fits l -> max_align packed (map plain_align l) <= 2 ^ 60.
Proof. intros H. unfold max_align. destruct packed; [lia|]. induction H as [|t l Ht Hl IH]; cbn; [lia|]. pose proof (plain_align_bound t Ht). lia. Qed.
Lemma max_align_pos packed l : 0 < max_align packed (map plain_align l).
Proof. apply pow2_pos, max_align_pow. apply Forall_fmap. apply Forall_forall. intros t _. apply plain_align_pow. Qed.
Lemma alloc_ok t : fits t -> GetTypeStoreSize t = Some (plain_store t) -> GetTypeAlignment t = Some (plain_align t) -> (match t with TStruct _ _ _ _ | TArray _ _ => (plain_align t | plain_store t) | _ => True end) -> exact t.
Proof.
  intros Hf E1 E2 Hd. split; [done|]. split; [done|]. rewrite GetTypeAllocSize_eq. unfold plain_alloc. pose proof (proj1 (plain_store_nonneg t Hf)). pose proof (plain_store_bound t Hf). pose proof (plain_align_pos t). pose proof (plain_align_bound t Hf).
  assert (HR : round_multiple (plain_store t) (plain_align t) = Some (ceil_to (plain_store t) (plain_align t))) by (apply round_ok; lia).
  destruct t; rewrite E1; try rewrite E2; cbn [mbind option_bind]; try (exact HR); rewrite ceil_to_id; done.
Qed.
Lemma layout_exact t : fits t -> exact t.
Proof.
  induction t as [n| |n t IH|s| |name p l f IH|s n t IH| | |a r _ _] using ty_ind'; intros H; inversion H as [? H0 H1| |? ? H0 Ht H1| |? ? ? ? Hl H1|? ? ? H0 Ht H1|]; subst.
  - assert (E1 : GetTypeStoreSize (TBits n) = Some (plain_store (TBits n))). { rewrite GetTypeStoreSize_eq. pose proof (proj2 (plain_store_nonneg _ H)) as Hb. cbn in Hb. rewrite wrap_id by lia. done. }
    apply alloc_ok; [done | done | | done]. rewrite GetTypeAlignment_eq, E1. cbn [mbind option_bind]. pose proof (proj1 (plain_store_nonneg _ H)). rewrite pow2_ok by lia. done.
  - apply alloc_ok; done.
  - destruct (IH Ht) as (I1 & I2 & I3). pose proof (plain_alloc_nonneg t Ht) as Hn. unfold plain_store in H1. rewrite plain_array in H1. cbn [fst] in H1. apply alloc_ok; [done | | |].
    + rewrite GetTypeStoreSize_eq, I3. cbn [mbind option_bind]. unfold mul64. rewrite wrap_id by (split; [by apply Z.mul_nonneg_nonneg | lia]). unfold plain_store. by rewrite plain_array.
    + rewrite GetTypeAlignment_eq, I2. unfold plain_align. by rewrite plain_array.
    + unfold plain_align, plain_store. rewrite plain_array. cbn [fst snd]. apply Z.divide_mul_r. apply ceil_to_divide, plain_align_pos.
  - apply alloc_ok; [done | by destruct s | by destruct s | done].
  - assert (He : Forall exact f) by (rewrite Forall_forall in IH, Hl |- *; auto). unfold plain_store in H1. rewrite plain_struct in H1. cbn [fst] in H1. pose proof (max_align_pos p f) as Hm. pose proof (max_align_bound p f Hl) as Hmb.
    pose proof (ends_ge p 0 _ (ok_fields f Hl)) as Hge. change (ends p 0 (map plain_pair f)) with (fields_end p (map plain_pair f)) in Hge. pose proof (ceil_to_ge (fields_end p (map plain_pair f)) _ Hm) as Hcg.
    apply alloc_ok; [done | | |].
    + rewrite GetTypeStoreSize_eq. destruct (struct_loop_ok p f Hl He 0 1) as (a & R1 & ->); [lia | exists 0; split; [lia | done] | lia | change (fields_end p (map plain_pair f) <= 2 ^ 60); lia|]. rewrite R1. cbn [mbind option_bind]. change (ends p 0 (map plain_pair f)) with (fields_end p (map plain_pair f)).
      rewrite Z.max_r by lia. rewrite round_ok by lia. unfold plain_store. by rewrite plain_struct.
    + rewrite GetTypeAlignment_eq. unfold plain_align. rewrite plain_struct. cbn [snd]. destruct p; [done|]. rewrite lcm_loop_ok; [|done|done|exists 0; split; [lia | done]|lia]. rewrite Z.max_r by lia. done.
    + unfold plain_align, plain_store. rewrite plain_struct. cbn [fst snd]. by apply ceil_to_divide.
  - destruct (IH Ht) as (I1 & I2 & I3). pose proof (plain_alloc_nonneg t Ht) as Hn. unfold plain_store in H1. rewrite plain_vector in H1. cbn [fst] in H1. assert (Hm : 0 <= n * plain_alloc t) by (by apply Z.mul_nonneg_nonneg).
    assert (E1 : GetTypeStoreSize (TVector s n t) = Some (plain_store (TVector s n t))). { rewrite GetTypeStoreSize_eq, I3. cbn [mbind option_bind]. unfold mul64. rewrite wrap_id by lia. unfold plain_store. by rewrite plain_vector. }
    apply alloc_ok; [done | done | | done]. rewrite GetTypeAlignment_eq, E1. cbn [mbind option_bind]. unfold plain_store, plain_align. rewrite plain_vector. cbn [fst snd]. rewrite pow2_ok by lia. done.
  - apply alloc_ok; done.
Qed.
(** field offsets *)
Definition field_align (packed : bool) (t : ty) : Z := if packed then 1 else plain_align t.
Fixpoint offset_from (packed : bool) (start : Z) (l : list ty) (index : nat) : option Z :=
  match l with [] => None | t :: l => match index with O => Some (ceil_to start (field_align packed t)) | S index => offset_from packed (ceil_to start (field_align packed t) + plain_alloc t) l index end end.
Lemma offset_loop_ok packed l : Forall fits l -> forall index start, 0 <= start -> ends packed start (map plain_pair l) <= 2 ^ 60 -> offset_loop packed l index start = offset_from packed start l index.
Proof.
  intros Hf. induction Hf as [|t l Ht Hl IH]; intros index start Hs He; [done|]. cbn [offset_loop offset_from]. destruct (layout_exact t Ht) as (E1 & E2 & E3).
  assert (Ea : (if packed then Some 1 else GetTypeAlignment t) = Some (field_align packed t)) by (unfold field_align; destruct packed; [done | by rewrite E2]). rewrite Ea. cbn [mbind option_bind].
  assert (Hp : power_of_two (field_align packed t)) by (apply align1_pow, plain_align_pow). pose proof (pow2_pos _ Hp) as Hp0. assert (Hb1 : field_align packed t <= 2 ^ 60) by (unfold field_align; destruct packed; [lia | by apply plain_align_bound]).
  pose proof (ceil_to_ge start _ Hp0) as Hc. pose proof (plain_alloc_nonneg t Ht) as Hn. change (ends packed (ceil_to start (field_align packed t) + plain_alloc t) (map plain_pair l) <= 2 ^ 60) in He. pose proof (ends_ge packed (ceil_to start (field_align packed t) + plain_alloc t) _ (ok_fields l Hl)) as Hge.
  rewrite round_ok by lia. cbn [mbind option_bind]. destruct index as [|index]; [done|]. rewrite E3. cbn [mbind option_bind]. unfold add64. rewrite wrap_id by lia. apply IH; [lia | done].
Qed.
Lemma offset_from_some packed l : forall start index t, l !! index = Some t -> exists o, offset_from packed start l index = Some o.
Proof. induction l as [|x l IH]; intros start [|index] t H; [done | done | eexists; done|]. cbn [offset_from]. by eapply IH. Qed.
Lemma offset_from_none packed l : forall start index, l !! index = None -> offset_from packed start l index = None.
Proof. induction l as [|x l IH]; intros start [|index] H; [done | done | done |]. cbn [offset_from]. by apply IH. Qed.
Lemma offset_from_divide packed l : forall start index t o, l !! index = Some t -> offset_from packed start l index = Some o -> (field_align packed t | o).
Proof.
  induction l as [|x l IH]; intros start [|index] t o H Ho; [done | done | |].
  - cbn in H, Ho. injection H as ->. injection Ho as <-. apply ceil_to_divide. apply pow2_pos, align1_pow, plain_align_pow.
  - cbn [offset_from] in Ho. by eapply IH.
Qed.
Lemma offset_from_next packed l : forall start index t u o, l !! index = Some t -> l !! S index = Some u -> offset_from packed start l index = Some o -> offset_from packed start l (S index) = Some (ceil_to (o + plain_alloc t) (field_align packed u)).
Proof.
  induction l as [|x l IH]; intros start [|index] t u o H Hu Ho; [done | done | |].
  - cbn in H, Ho. injection H as ->. injection Ho as <-. destruct l as [|y l]; [done|]. cbn in Hu. injection Hu as ->. done.
  - cbn [offset_from] in Ho |- *. by eapply IH.
Qed.
Lemma offset_from_end packed l : forall start index t o, l !! index = Some t -> S index = length l -> offset_from packed start l index = Some o -> ends packed start (map plain_pair l) = o + plain_alloc t.
Proof.
  induction l as [|x l IH]; intros start [|index] t o H Hl Ho; [done | done | |].
  - cbn in H, Ho, Hl. injection H as ->. injection Ho as <-. destruct l; [done | cbn in Hl; lia].
  - cbn [offset_from] in Ho. cbn in H, Hl. change (ends packed (ceil_to start (field_align packed x) + plain_alloc x) (map plain_pair l) = o + plain_alloc t). eapply IH; [done | lia | done].
Qed.
Lemma offset_from_ge packed l : Forall fits l -> forall start index o, offset_from packed start l index = Some o -> start <= o.
Proof.
  intros Hf. induction Hf as [|x l Hx Hl IH]; intros start [|index] o Ho; [done | done | |]; cbn [offset_from] in Ho; assert (Hp : 0 < field_align packed x) by (apply pow2_pos, align1_pow, plain_align_pow); pose proof (ceil_to_ge start _ Hp).
  - by injection Ho as <-.
  - specialize (IH _ _ _ Ho). pose proof (plain_alloc_nonneg x Hx). lia.
Qed.
(** a field lies before all later fields *)
Lemma offset_from_before packed l : Forall fits l -> forall start i j t o o', (i < j)%nat -> l !! i = Some t -> offset_from packed start l i = Some o -> offset_from packed start l j = Some o' -> o + plain_alloc t <= o'.
Proof.
  intros Hf. induction Hf as [|x l Hx Hl IH]; intros start i j t o o' Hij Ht Ho Ho'; [done|]. destruct j as [|j]; [lia|]. destruct i as [|i]; cbn [offset_from] in Ho, Ho'.
  - cbn in Ht. injection Ht as ->. injection Ho as <-. by eapply offset_from_ge.
  - cbn in Ht. eapply (IH _ i j); [lia | done | done | done].
Qed.
Lemma offset_from_fits packed l : Forall fits l -> forall start i t o, l !! i = Some t -> offset_from packed start l i = Some o -> o + plain_alloc t <= ends packed start (map plain_pair l).
Proof.
  intros Hf. induction Hf as [|x l Hx Hl IH]; intros start i t o Ht Ho; [done|]. change (o + plain_alloc t <= ends packed (ceil_to start (field_align packed x) + plain_alloc x) (map plain_pair l)). destruct i as [|i]; cbn [offset_from] in Ho.
  - cbn in Ht. injection Ht as ->. injection Ho as <-. by apply ends_ge, ok_fields.
  - cbn in Ht. by eapply IH.
Qed.
(** equality *)
Definition eqb_list := fix go (l l' : list ty) := match l, l' with x :: l, y :: l' => type_eqb x y && go l l' | _, _ => true end.
Lemma eqb_list_iff l : Forall (fun s => forall t, type_eqb s t = true <-> fixed s = fixed t) l -> forall l', Nat.eqb (length l) (length l') && eqb_list l l' = true <-> map fixed l = map fixed l'.
Proof.
  induction 1 as [|x l Hx Hl IH]; intros [|y l']; cbn [length Nat.eqb eqb_list map]; try done. rewrite andb_true_iff, andb_true_iff, Hx. specialize (IH l'). rewrite andb_true_iff in IH. split.
  - intros (H1 & -> & H2). f_equal. by apply IH.
  - intros [= H1 H2]. apply IH in H2 as [H2 H3]. done.
Qed.
Lemma type_eqb_iff s : forall t, type_eqb s t = true <-> fixed s = fixed t.
Proof.
  induction s as [n| |n s IH|f| |name p l f IH|b n s IH| | |a r IHa IHr] using ty_ind'; intros t; destruct t as [m| |m t|g| |name' p' l' f'|b' m t| | |a' r']; cbn [type_eqb fixed]; try done.
  - rewrite Z.eqb_eq. split; congruence.
  - rewrite andb_true_iff, Z.eqb_eq, IH. split; [intros [-> ->]; done | intros [= -> ->]; done].
  - destruct f, g; done.
  - fold eqb_list. rewrite <-andb_assoc. rewrite !andb_true_iff. rewrite !Bool.eqb_true_iff, String.eqb_eq. rewrite (eqb_list_iff f IH f') || (rewrite <-andb_true_iff, (eqb_list_iff f IH f')). split; [intros [[[-> ->] ->] ->]; done | intros [= -> -> -> ->]; done].
  - rewrite andb_true_iff, Z.eqb_eq, IH. split; [intros [-> ->]; done | intros [= -> ->]; done].
  - fold eqb_list. pose proof (eqb_list_iff a IHa a') as H1. pose proof (eqb_list_iff r IHr r') as H2. rewrite andb_true_iff in H1, H2. rewrite !andb_true_iff. split.
    + intros [[[A1 A2] A3] A4]. rewrite (proj1 H1), (proj1 H2); done.
    + intros [= B1 B2]. apply H1 in B1 as [B1 B3]. apply H2 in B2 as [B2 B4]. done.
Qed.
Lemma fixed_id t : no_scalable t -> fixed t = t.
Proof.
  assert (HF : forall l, Forall (fun t => no_scalable t -> fixed t = t) l -> Forall no_scalable l -> map fixed l = l).
  { induction 1 as [|x l Hx Hl IH]; intros H; [done|]. inversion H; subst. cbn. by rewrite Hx, IH. }
  induction t as [n| |n t IH|f| |name p l f IH|b n t IH| | |a r IHa IHr] using ty_ind'; intros H; inversion H; subst; cbn [fixed]; try done; f_equal; auto.
Qed.
