From Coq Require Import ZArith Lia String.
From stdpp Require Import base list.
From Verif.MathUtil Require Import Model Spec Properties.
From Verif.Types Require Import Model Spec.
Local Open Scope Z_scope.

Lemma ty_ind' (P : ty -> Prop) : (forall n, P (TBits n)) -> P TPtr -> (forall n t, P t -> P (TArray n t)) -> (forall s, P (TFloat s)) -> P TVarArg ->
  (forall name p l f, Forall P f -> P (TStruct name p l f)) -> (forall s n t, P t -> P (TVector s n t)) -> P TIO -> P TMem -> (forall a r, Forall P a -> Forall P r -> P (TFunction a r)) -> forall t, P t.
Proof.
  intros H1 H2 H3 H4 H5 H6 H7 H8 H9 H10. fix IH 1.
  assert (IHl : forall l, Forall P l) by (induction l as [|x l IHl]; constructor; [apply IH | exact IHl]).
  intros [n| |n t|s| |name p l f|s n t| | |a r]; [apply H1 | apply H2 | apply H3, IH | apply H4 | apply H5 | apply H6, IHl | apply H7, IH | apply H8 | apply H9 | apply H10; apply IHl].
Qed.
(** the three functions, as in the code *)
Lemma layout_pair t : layout t = (GetTypeStoreSize t, GetTypeAlignment t).
Proof. unfold GetTypeStoreSize, GetTypeAlignment. by destruct (layout t). Qed.
Definition sub_layout (t : ty) : option Z * option Z := (GetTypeAllocSize t, GetTypeAlignment t).
Lemma sub_layout_map l : map (fun t => let '(s, a) := layout t in (alloc_of t s a, a)) l = map sub_layout l.
Proof. apply map_ext. intros t. rewrite layout_pair. done. Qed.
Lemma GetTypeStoreSize_eq t : GetTypeStoreSize t = match t with
  | TBits n => Some (wrap (n + 7) / 8) | TPtr => Some 8 | TArray n t => size ← GetTypeAllocSize t; Some (mul64 n size) | TFloat f => Some (fp_size f)
  | TStruct _ packed _ l => '(total, alignment) ← struct_loop packed (map sub_layout l) 0 1; round_multiple total alignment
  | TVector _ n t => size ← GetTypeAllocSize t; Some (mul64 n size) | TFunction _ _ => Some 0 | _ => None end.
Proof.
  destruct t as [n| |n t|s| |name p l f|s n t| | |a r]; try done; unfold GetTypeStoreSize at 1; cbn [layout].
  - rewrite layout_pair. cbn [fst]. done.
  - cbn [fst]. rewrite sub_layout_map. done.
  - rewrite layout_pair. done.
Qed.
Lemma GetTypeAlignment_eq t : GetTypeAlignment t = match t with
  | TBits _ | TPtr | TFloat _ | TVector _ _ _ => s ← GetTypeStoreSize t; RoundUpToPowerOf2 uint64 s
  | TArray _ t => GetTypeAlignment t | TStruct _ packed _ l => if packed then Some 1 else lcm_loop (map GetTypeAlignment l) 1 | TFunction _ _ => Some 1 | _ => None end.
Proof.
  destruct t as [n| |n t|s| |name p l f|s n t| | |a r]; try done; unfold GetTypeAlignment at 1; cbn [layout].
  - rewrite layout_pair. done.
  - cbn [snd]. rewrite sub_layout_map, map_map. done.
Qed.
Lemma GetTypeAllocSize_eq t : GetTypeAllocSize t = match t with TStruct _ _ _ _ | TArray _ _ => GetTypeStoreSize t | _ => s ← GetTypeStoreSize t; a ← GetTypeAlignment t; round_multiple s a end.
Proof. by destruct t. Qed.

(** rounding *)
Lemma ceil_to_spec v m : 0 < m -> is_ceil_multiple v m (ceil_to v m).
Proof.
  intros Hm. unfold ceil_to. split; [by eexists|]. pose proof (Z.mul_div_le (v + m - 1) m Hm). pose proof (Z.mul_succ_div_gt (v + m - 1) m Hm). split; [lia|].
  intros k Hk. apply Z.mul_le_mono_nonneg_r; [lia|]. assert (Hq : (v + m - 1) / m < k + 1); [|lia]. apply Z.div_lt_upper_bound; [done|]. lia.
Qed.
Lemma ceil_to_ge v m : 0 < m -> v <= ceil_to v m.
Proof. intros Hm. apply (ceil_to_spec v m Hm). Qed.
Lemma ceil_to_lt v m : 0 < m -> ceil_to v m < v + m.
Proof. intros Hm. unfold ceil_to. pose proof (Z.mul_div_le (v + m - 1) m Hm). lia. Qed.
Lemma ceil_to_mono v w m : 0 < m -> v <= w -> ceil_to v m <= ceil_to w m.
Proof. intros Hm H. destruct (ceil_to_spec w m Hm) as ((k & Hk) & H1 & _). rewrite Hk. apply (ceil_to_spec v m Hm). lia. Qed.
Lemma ceil_to_id v m : 0 < m -> (m | v) -> ceil_to v m = v.
Proof. intros Hm [k ->]. apply Z.le_antisymm; [|by apply ceil_to_ge]. apply (ceil_to_spec _ m Hm). lia. Qed.
Lemma ceil_to_divide v m : 0 < m -> (m | ceil_to v m).
Proof. intros Hm. unfold ceil_to. apply Z.divide_factor_r. Qed.
Lemma ceil_to_1 v : ceil_to v 1 = v.
Proof. apply ceil_to_id; [lia | apply Z.divide_1_l]. Qed.
Lemma pow2_ceil_spec v : is_ceil_pow2 v (pow2_ceil v).
Proof.
  unfold pow2_ceil. destruct (Z.leb_spec v 1) as [H|H].
  - split; [exists 0; split; [lia | done]|]. split; [done|]. intros k Hk _. assert (2 ^ 0 <= 2 ^ k) by (apply Z.pow_le_mono_r; lia). lia.
  - destruct (Z.log2_up_spec v H) as [H1 H2]. split; [exists (Z.log2_up v); split; [apply Z.log2_up_nonneg | done]|]. split; [done|]. intros k Hk Hv. apply Z.pow_le_mono_r; [lia|]. by apply Z.log2_up_le_pow2; [lia|].
Qed.
Lemma pow2_ceil_bound v k : 0 <= k -> v <= 2 ^ k -> pow2_ceil v <= 2 ^ k.
Proof. intros Hk Hv. by apply (pow2_ceil_spec v). Qed.
Lemma pow2_pos a : power_of_two a -> 0 < a.
Proof. intros (k & Hk & ->). lia. Qed.
Lemma pow2_ceil_pow v : power_of_two (pow2_ceil v).
Proof. destruct (pow2_ceil_spec v) as (H & _). exact H. Qed.
Lemma pow2_divide a b : power_of_two a -> power_of_two b -> a <= b -> (a | b).
Proof. intros (k & Hk & ->) (j & Hj & ->) H. assert (Hkj : k <= j) by (apply (Z.pow_le_mono_r_iff 2); lia). exists (2 ^ (j - k)). rewrite <-Z.pow_add_r by lia. f_equal. lia. Qed.
Lemma pow2_lcm a b : power_of_two a -> power_of_two b -> Z.lcm a b = Z.max a b.
Proof.
  intros Ha Hb. pose proof (pow2_pos a Ha). pose proof (pow2_pos b Hb). destruct (Z.le_ge_cases a b) as [H1|H1].
  - rewrite Z.max_r by done. apply Z.divide_lcm_eq_r; [lia|]. by apply pow2_divide.
  - rewrite Z.max_l by done. rewrite Z.lcm_comm. apply Z.divide_lcm_eq_r; [lia|]. by apply pow2_divide.
Qed.
Lemma pow2_max a b : power_of_two a -> power_of_two b -> power_of_two (Z.max a b).
Proof. intros Ha Hb. destruct (Z.max_spec a b) as [[_ ->]|[_ ->]]; done. Qed.
Lemma round_ok v m : 0 <= v <= 2 ^ 61 -> 0 < m <= 2 ^ 61 -> round_multiple v m = Some (ceil_to v m).
Proof.
  intros Hv Hm. unfold round_multiple. apply (RoundUpToMultipleOf_unsigned_exact 64); unfold in_range, tmin, tmax; cbn [is_signed width]; try lia.
  - apply ceil_to_spec. lia.
  - pose proof (ceil_to_ge v m). pose proof (ceil_to_lt v m). lia.
Qed.
Lemma pow2_ok v : 0 <= v <= 2 ^ 61 -> RoundUpToPowerOf2 uint64 v = Some (pow2_ceil v).
Proof.
  intros Hv. pose proof (pow2_pos _ (pow2_ceil_pow v)). pose proof (pow2_ceil_bound v 61 ltac:(lia) ltac:(lia)). apply RoundUpToPowerOf2_exact; unfold in_range, tmin, tmax; cbn [is_signed width uint64]; try lia. apply pow2_ceil_spec.
Qed.
Lemma wrap_id v : 0 <= v < 2 ^ 64 -> wrap v = v.
Proof. intros H. unfold wrap. by apply Z.mod_small. Qed.
(** fields *)
Definition plain_pair (t : ty) : Z * Z := (plain_alloc t, plain_align t).
Lemma plain_sub l : map (fun t => let '(s, a) := plain t in (ceil_to s a, a)) l = map plain_pair l.
Proof. apply map_ext. intros t. unfold plain_pair, plain_alloc, plain_store, plain_align. by destruct (plain t). Qed.
Lemma plain_eq t : plain t = (plain_store t, plain_align t).
Proof. unfold plain_store, plain_align. by destruct (plain t). Qed.
Lemma plain_struct name packed literal l : plain (TStruct name packed literal l) = (ceil_to (fields_end packed (map plain_pair l)) (max_align packed (map plain_align l)), max_align packed (map plain_align l)).
Proof. cbn [plain]. rewrite plain_sub, map_map. done. Qed.
Lemma plain_array n t : plain (TArray n t) = (n * plain_alloc t, plain_align t).
Proof. cbn [plain]. rewrite plain_eq. done. Qed.
Lemma plain_vector s n t : plain (TVector s n t) = (n * plain_alloc t, pow2_ceil (n * plain_alloc t)).
Proof. cbn [plain]. rewrite plain_eq. done. Qed.
Lemma max_align_pow packed l : Forall power_of_two l -> power_of_two (max_align packed l).
Proof. intros H. unfold max_align. destruct packed; [exists 0; split; [lia | done]|]. induction H as [|a l Ha Hl IH]; cbn; [exists 0; split; [lia | done]|]. by apply pow2_max. Qed.
Lemma max_align_ge l a : In a l -> a <= max_align false l.
Proof. unfold max_align. induction l as [|b l IH]; [done|]. intros [-> |H]; cbn; [lia|]. specialize (IH H). cbn in IH. lia. Qed.
Lemma plain_align_pow t : power_of_two (plain_align t).
Proof.
  assert (H1 : power_of_two 1) by (exists 0; split; [lia | done]). induction t as [n| |n t IH|s| |name p l f IH|s n t IH| | |a r _ _] using ty_ind'; try done; unfold plain_align.
  - cbn. apply pow2_ceil_pow.
  - exists 3. split; [lia | done].
  - by rewrite plain_array.
  - cbn. apply pow2_ceil_pow.
  - rewrite plain_struct. cbn [snd]. apply max_align_pow. by apply Forall_fmap.
  - rewrite plain_vector. cbn [snd]. apply pow2_ceil_pow.
Qed.
Lemma plain_align_pos t : 0 < plain_align t.
Proof. apply pow2_pos, plain_align_pow. Qed.
(** where fields end, from a start *)
Definition ends (packed : bool) (start : Z) (fields : list (Z * Z)) : Z := foldl (fun e '(size, align) => ceil_to e (if packed then 1 else align) + size) start fields.
Definition ok_field (p : Z * Z) : Prop := 0 <= fst p /\ power_of_two (snd p).
Lemma ends_ge packed start fields : Forall ok_field fields -> start <= ends packed start fields.
Proof.
  intros H. revert start. induction H as [|[size align] l [H1 H2] Hl IH]; intros start; cbn; [lia|]. cbn in H1, H2. pose proof (pow2_pos _ H2). etransitivity; [|apply IH]. assert (start <= ceil_to start (if packed then 1 else align)) by (apply ceil_to_ge; destruct packed; lia). lia.
Qed.
Lemma plain_store_nonneg t : fits t -> 0 <= plain_store t /\ (match t with TBits n => n <= 2 ^ 63 | _ => True end).
Proof.
  induction t as [n| |n t IH|s| |name p l f IH|s n t IH| | |a r _ _] using ty_ind'; intros H; inversion H as [? H0 H1| |? ? H0 Ht H1| |? ? ? ? Hl H1|? ? ? H0 Ht H1|]; subst; unfold plain_store in *; cbn [plain fst] in *; try (split; [lia | done]).
  - split; [apply Z.div_pos; lia|]. pose proof (Z.mul_succ_div_gt (n + 7) 8 ltac:(lia)). lia.
  - rewrite plain_eq. cbn [fst]. destruct (IH Ht) as [H2 _]. split; [|done]. apply Z.mul_nonneg_nonneg; [done|]. pose proof (ceil_to_ge (plain_store t) (plain_align t) (plain_align_pos t)). unfold plain_store in *. lia.
  - by destruct s.
  - change (0 <= fst (plain (TStruct name p l f)) /\ True). rewrite plain_struct. cbn [fst]. split; [|done]. assert (Hf : Forall ok_field (map plain_pair f)).
    { apply Forall_fmap. rewrite Forall_forall in IH, Hl |- *. intros t Ht. destruct (IH t Ht (Hl t Ht)) as [H2 _]. split; [|apply plain_align_pow]. cbn. pose proof (ceil_to_ge (plain_store t) (plain_align t) (plain_align_pos t)). unfold plain_alloc, plain_store in *. lia. }
    pose proof (ends_ge p 0 _ Hf) as He. change (ends p 0 (map plain_pair f)) with (fields_end p (map plain_pair f)) in He. etransitivity; [exact He|]. apply ceil_to_ge. apply pow2_pos. apply max_align_pow. apply Forall_fmap. apply Forall_forall. intros t _. apply plain_align_pow.
  - rewrite plain_eq. cbn [fst]. destruct (IH Ht) as [H2 _]. split; [|done]. apply Z.mul_nonneg_nonneg; [done|]. pose proof (ceil_to_ge (plain_store t) (plain_align t) (plain_align_pos t)). unfold plain_store in *. lia.
Qed.
