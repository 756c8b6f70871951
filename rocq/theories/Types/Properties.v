(** Property theorems for the layout, the equality and the hash of types (C46, C47). *)
From Coq Require Import ZArith Lia String.
From stdpp Require Import base list.
From Verif.MathUtil Require Import Model Spec.
From Verif.Types Require Import Model Spec Proofs Proofs2.
Local Open Scope Z_scope.

(** ** C46 *)
(** the alignment is a power of two; the allocation size is the least multiple of it that holds the store size *)
Theorem sizes_and_alignment : forall t, fits t -> exists store align alloc, GetTypeStoreSize t = Some store /\ GetTypeAlignment t = Some align /\ GetTypeAllocSize t = Some alloc /\
  0 <= store /\ power_of_two align /\ is_ceil_multiple store align alloc.
Proof.
  intros t H. destruct (layout_exact t H) as (E1 & E2 & E3). exists (plain_store t), (plain_align t), (plain_alloc t). split; [done|]. split; [done|]. split; [done|]. split; [by apply plain_store_nonneg|]. split; [apply plain_align_pow|]. apply ceil_to_spec, plain_align_pos.
Qed.
Print Assumptions sizes_and_alignment.
(** no operation on size_t overflows: the results are those of plain arithmetic *)
Theorem sizes_exact : forall t, fits t -> GetTypeStoreSize t = Some (plain_store t) /\ GetTypeAlignment t = Some (plain_align t) /\ GetTypeAllocSize t = Some (plain_alloc t).
Proof. exact layout_exact. Qed.
Print Assumptions sizes_exact.
(** the store sizes of values that have no parts, in bytes *)
Theorem scalar_sizes : GetTypeStoreSize TPtr = Some 8 /\ (forall n, fits (TBits n) -> exists s, GetTypeStoreSize (TBits n) = Some s /\ 8 * (s - 1) < n <= 8 * s) /\
  GetTypeStoreSize (TFloat half) = Some 2 /\ GetTypeStoreSize (TFloat flt) = Some 4 /\ GetTypeStoreSize (TFloat dbl) = Some 8 /\ GetTypeStoreSize (TFloat x86fp80) = Some 10 /\ GetTypeStoreSize (TFloat fp128) = Some 16.
Proof.
  split; [done|]. split; [|done]. intros n H. destruct (layout_exact _ H) as (E1 & _). rewrite E1. eexists. split; [done|]. unfold plain_store. cbn [plain fst]. pose proof (Z.mul_div_le (n + 7) 8 ltac:(lia)). pose proof (Z.mul_succ_div_gt (n + 7) 8 ltac:(lia)). lia.
Qed.
Print Assumptions scalar_sizes.
(** integers, floating point values, pointers and vectors: aligned to the least power of two that is at least their store size *)
Theorem scalar_alignment : forall t store align, fits t -> (forall n u, t <> TArray n u) -> (forall name p l f, t <> TStruct name p l f) -> (forall a r, t <> TFunction a r) ->
  GetTypeStoreSize t = Some store -> GetTypeAlignment t = Some align -> is_ceil_pow2 store align.
Proof.
  intros t store align H Ha Hs Hf E1 E2. destruct (layout_exact t H) as (X1 & X2 & _). rewrite X1 in E1. rewrite X2 in E2. injection E1 as <-. injection E2 as <-. unfold plain_store, plain_align.
  destruct t as [n| |n t|s| |name p l f|s n t| | |a r]; try (by inversion H); try (by edestruct Ha); try (by edestruct Hs); try (by edestruct Hf); try (apply pow2_ceil_spec).
Qed.
Print Assumptions scalar_alignment.
(** an array: element i starts at i times the allocation size of an element; all elements lie one after the other in the array and are aligned in it *)
Theorem array_layout : forall n t, fits (TArray n t) -> exists size align, GetTypeAllocSize t = Some size /\ GetTypeAlignment t = Some align /\
  GetTypeStoreSize (TArray n t) = Some (n * size) /\ GetTypeAllocSize (TArray n t) = Some (n * size) /\ GetTypeAlignment (TArray n t) = Some align /\
  forall i, 0 <= i < n -> (align | i * size) /\ i * size + size <= n * size.
Proof.
  intros n t H. inversion H as [| |? ? H0 Ht H1| | | |]; subst. destruct (layout_exact t Ht) as (E1 & E2 & E3). destruct (layout_exact _ H) as (A1 & A2 & A3).
  assert (Hs : plain_store (TArray n t) = n * plain_alloc t) by (unfold plain_store at 1; by rewrite plain_array). assert (Hal : plain_align (TArray n t) = plain_align t) by (unfold plain_align at 1; by rewrite plain_array).
  pose proof (plain_align_pos t) as Hp. assert (Hd : (plain_align t | plain_alloc t)) by (by apply ceil_to_divide).
  exists (plain_alloc t), (plain_align t). split; [done|]. split; [done|]. rewrite A1, A2, A3, Hs, Hal. split; [done|]. split; [unfold plain_alloc at 1; rewrite Hs, Hal; f_equal; apply ceil_to_id; [done | by apply Z.divide_mul_r]|]. split; [done|].
  intros i Hi. split; [by apply Z.divide_mul_r|]. pose proof (plain_alloc_nonneg t Ht). nia.
Qed.
Print Assumptions array_layout.
(** a struct: the first field starts at 0; each further field starts at the least multiple of its alignment (any byte, if packed) after the end of the field before;
    the struct is aligned to the largest alignment of its fields (not at all, if packed), and its size is the least multiple of that after the last field *)
Theorem struct_layout : forall name packed literal fields, let s := TStruct name packed literal fields in fits s ->
  let align_in t a := if packed then a = 1 else GetTypeAlignment t = Some a in
  exists align size, GetTypeAlignment s = Some align /\ GetTypeStoreSize s = Some size /\ GetTypeAllocSize s = Some size /\
  (packed = true -> align = 1) /\ (packed = false -> forall t a, In t fields -> GetTypeAlignment t = Some a -> a <= align /\ (a | align)) /\
  (align = 1 \/ exists t, In t fields /\ GetTypeAlignment t = Some align) /\
  (fields = [] -> size = 0) /\
  (forall i t, fields !! i = Some t -> exists o a len, GetFieldOffset packed fields i = Some o /\ align_in t a /\ GetTypeAllocSize t = Some len /\
     (i = 0%nat -> o = 0) /\
     (forall u, fields !! S i = Some u -> exists o' a', GetFieldOffset packed fields (S i) = Some o' /\ align_in u a' /\ is_ceil_multiple (o + len) a' o') /\
     (S i = length fields -> is_ceil_multiple (o + len) align size)) /\
  (forall i, fields !! i = None -> GetFieldOffset packed fields i = None).
Proof.
  intros name packed literal fields s H align_in. unfold s in *. inversion H as [| | | |? ? ? ? Hl H1| |]; subst. destruct (layout_exact _ H) as (A1 & A2 & A3).
  assert (Hs : plain_store (TStruct name packed literal fields) = ceil_to (fields_end packed (map plain_pair fields)) (max_align packed (map plain_align fields))) by (unfold plain_store; by rewrite plain_struct).
  assert (Hal : plain_align (TStruct name packed literal fields) = max_align packed (map plain_align fields)) by (unfold plain_align at 1; by rewrite plain_struct). pose proof (max_align_pos packed fields) as Hmp.
  assert (Hend : ends packed 0 (map plain_pair fields) <= 2 ^ 60). { pose proof (ceil_to_ge (fields_end packed (map plain_pair fields)) _ Hmp). change (fields_end packed (map plain_pair fields) <= 2 ^ 60). lia. }
  assert (Hgo : forall i, GetFieldOffset packed fields i = offset_from packed 0 fields i) by (intros i; apply offset_loop_ok; [done | lia | done]).
  assert (Hai : forall t, fits t -> align_in t (field_align packed t)). { intros t Ht. unfold align_in, field_align. destruct packed; [done|]. apply (layout_exact t Ht). }
  exists (plain_align (TStruct name packed literal fields)), (plain_store (TStruct name packed literal fields)). split; [done|]. split; [done|]. split; [rewrite A3; unfold plain_alloc; f_equal; apply ceil_to_id; [rewrite Hal; done | rewrite Hs, Hal; by apply ceil_to_divide]|].
  rewrite Hal. split; [by intros ->|]. split.
  { intros -> t a Ht Ea. assert (Hft : fits t) by (rewrite List.Forall_forall in Hl; by apply Hl). destruct (layout_exact t Hft) as (_ & E2 & _). rewrite Ea in E2. injection E2 as ->. assert (Hle : plain_align t <= max_align false (map plain_align fields)) by (apply max_align_ge; by apply in_map). split; [done|].
    apply pow2_divide; [apply plain_align_pow | | done]. apply max_align_pow. apply Forall_fmap. apply Forall_forall. intros u _. apply plain_align_pow. }
  split.
  { unfold max_align. destruct packed; [by left|]. clear -Hl. induction Hl as [|t l Ht Hl IH]; cbn; [by left|]. destruct (layout_exact t Ht) as (_ & E2 & _). destruct (Z.max_spec (plain_align t) (foldr Z.max 1 (map plain_align l))) as [[_ ->]|[_ ->]].
    - destruct IH as [IH|(u & U1 & U2)]; [by left|]. right. exists u. split; [by right | done].
    - right. exists t. split; [by left | done]. }
  split; [intros ->; rewrite Hs; cbn; by destruct packed|]. split.
  - intros i t Ht. destruct (offset_from_some packed fields 0 i t Ht) as [o Ho]. assert (Hft : fits t) by (rewrite Forall_forall in Hl; apply Hl; by eapply elem_of_list_lookup_2). destruct (layout_exact t Hft) as (_ & _ & E3).
    exists o, (field_align packed t), (plain_alloc t). split; [by rewrite Hgo|]. split; [by apply Hai|]. split; [done|]. split; [|split].
    + intros ->. destruct fields as [|x l]; [done|]. cbn in Ho. injection Ho as <-. apply ceil_to_id; [|apply Z.divide_0_r]. apply pow2_pos, align1_pow, plain_align_pow.
    + intros u Hu. assert (Hfu : fits u) by (rewrite Forall_forall in Hl; apply Hl; by eapply elem_of_list_lookup_2). exists (ceil_to (o + plain_alloc t) (field_align packed u)), (field_align packed u). split; [rewrite Hgo; by apply offset_from_next|]. split; [by apply Hai|]. apply ceil_to_spec. apply pow2_pos, align1_pow, plain_align_pow.
    + intros Hi. rewrite Hs. pose proof (offset_from_end packed fields 0 i t o Ht Hi Ho) as He. change (fields_end packed (map plain_pair fields) = o + plain_alloc t) in He. rewrite He. by apply ceil_to_spec.
  - intros i Hi. rewrite Hgo. by apply offset_from_none.
Qed.
Print Assumptions struct_layout.
(** hence no two fields share a byte, every field lies in the struct, and every field of a struct that is not packed is aligned *)
Theorem struct_fields_disjoint : forall name packed literal fields i t o len, let s := TStruct name packed literal fields in fits s ->
  fields !! i = Some t -> GetFieldOffset packed fields i = Some o -> GetTypeAllocSize t = Some len ->
  0 <= o /\ (exists size, GetTypeStoreSize s = Some size /\ o + len <= size) /\ (packed = false -> forall a, GetTypeAlignment t = Some a -> (a | o)) /\
  forall j o', (i < j)%nat -> GetFieldOffset packed fields j = Some o' -> o + len <= o'.
Proof.
  intros name packed literal fields i t o len s H Ht Ho Hlen. unfold s in *. inversion H as [| | | |? ? ? ? Hl H1| |]; subst. destruct (layout_exact _ H) as (A1 & _ & _).
  assert (Hs : plain_store (TStruct name packed literal fields) = ceil_to (fields_end packed (map plain_pair fields)) (max_align packed (map plain_align fields))) by (unfold plain_store; by rewrite plain_struct). pose proof (max_align_pos packed fields) as Hmp.
  pose proof (ceil_to_ge (fields_end packed (map plain_pair fields)) _ Hmp) as Hce. assert (Hend : ends packed 0 (map plain_pair fields) <= 2 ^ 60) by (change (fields_end packed (map plain_pair fields) <= 2 ^ 60); lia).
  assert (Hgo : forall i, GetFieldOffset packed fields i = offset_from packed 0 fields i) by (intros k; apply offset_loop_ok; [done | lia | done]). rewrite Hgo in Ho.
  assert (Hft : fits t) by (rewrite Forall_forall in Hl; apply Hl; by eapply elem_of_list_lookup_2). destruct (layout_exact t Hft) as (_ & E2 & E3). rewrite E3 in Hlen. injection Hlen as <-. split; [by eapply offset_from_ge|]. split; [|split].
  - exists (plain_store (TStruct name packed literal fields)). split; [done|]. pose proof (offset_from_fits packed fields Hl 0 i t o Ht Ho) as Hx. change (o + plain_alloc t <= fields_end packed (map plain_pair fields)) in Hx. lia.
  - intros -> a Ea. rewrite E2 in Ea. injection Ea as <-. exact (offset_from_divide false fields 0 i t o Ht Ho).
  - intros j o' Hij Ho'. rewrite Hgo in Ho'. by eapply offset_from_before.
Qed.
Print Assumptions struct_fields_disjoint.
(** a struct { i8, i33, i8 } of the comment in types.cpp, and the same packed *)
Example ex_c46 : let l := [TBits 8; TBits 33; TBits 8] in let s p := TStruct "" p true l in fits (s false) /\ fits (s true) /\
  GetTypeStoreSize (s false) = Some 24 /\ GetTypeStoreSize (s true) = Some 10 /\ GetFieldOffset false l 1 = Some 8 /\ GetFieldOffset false l 2 = Some 16 /\ GetFieldOffset true l 2 = Some 9 /\
  GetTypeAllocSize (TArray 3 (s false)) = Some 72 /\ GetTypeStoreSize (TFloat x86fp80) = Some 10 /\ GetTypeAllocSize (TFloat x86fp80) = Some 16 /\ GetTypeStoreSize TIO = None.
Proof.
  cbn zeta. assert (Hf : forall n, 0 <= n -> (n + 7) / 8 <= 2 ^ 60 -> fits (TBits n)) by (intros n H1 H2; by constructor). assert (Hl : Forall fits [TBits 8; TBits 33; TBits 8]) by (repeat constructor; vm_compute; discriminate).
  split; [constructor; [done | vm_compute; discriminate]|]. split; [constructor; [done | vm_compute; discriminate]|]. vm_compute. by repeat split.
Qed.

(** ** C47 *)
(** equality is an equivalence; it is equality of the types, except that fixed and scalable vectors are not distinguished *)
Theorem type_equality_equivalence : (forall t, type_eqb t t = true) /\ (forall s t, type_eqb s t = type_eqb t s) /\ (forall s t u, type_eqb s t = true -> type_eqb t u = true -> type_eqb s u = true).
Proof.
  split; [intros t; by apply type_eqb_iff|]. split.
  - intros s t. apply Bool.eq_iff_eq_true. rewrite !type_eqb_iff. done.
  - intros s t u H1 H2. apply type_eqb_iff in H1, H2. apply type_eqb_iff. congruence.
Qed.
Print Assumptions type_equality_equivalence.
Theorem type_equality_partial : forall s t, (type_eqb s t = true <-> fixed s = fixed t) /\ (no_scalable s -> no_scalable t -> (type_eqb s t = true <-> s = t)).
Proof. intros s t. split; [apply type_eqb_iff|]. intros Hs Ht. rewrite type_eqb_iff, !fixed_id by done. done. Qed.
Print Assumptions type_equality_partial.
Theorem type_equality_refuted : forall n t, type_eqb (TVector false n t) (TVector true n t) = true /\ TVector false n t <> TVector true n t.
Proof. intros n t. split; [by apply type_eqb_iff | done]. Qed.
Print Assumptions type_equality_refuted.
(** equal types have equal hashes, if neither contains a scalable vector; otherwise they need not *)
Theorem type_hash_partial : forall tid hz hb hs hf s t, no_scalable s -> no_scalable t -> type_eqb s t = true -> type_hash tid hz hb hs hf s = type_hash tid hz hb hs hf t.
Proof. intros tid hz hb hs hf s t Hs Ht H. apply type_equality_partial in H; [by subst | done | done]. Qed.
Print Assumptions type_hash_partial.
Theorem type_hash_refuted : exists tid hz hb hs hf s t, type_eqb s t = true /\ type_hash tid hz hb hs hf s <> type_hash tid hz hb hs hf t.
Proof.
  exists (fun c => match c with CFixedVector => 1 | CScalableVector => 2 | _ => 3 end), (fun z => z), (fun _ => 0), (fun _ => 0), (fun _ => 0), (TVector false 4 (TBits 32)), (TVector true 4 (TBits 32)). split; [done | vm_compute; discriminate].
Qed.
Print Assumptions type_hash_refuted.
(** equal types have equal sizes, alignments and field offsets, vectors included *)
Lemma layout_fixed t : layout (fixed t) = layout t.
Proof.
  assert (Ha : forall t s a, alloc_of (fixed t) s a = alloc_of t s a) by (by intros []).
  induction t as [n| |n t IH|f| |name p l f IH|b n t IH| | |a r IHa IHr] using ty_ind'; try done; cbn [fixed layout].
  - rewrite IH. destruct (layout t) as [s a]. by rewrite Ha.
  - rewrite map_map. assert (E : map (fun x => let '(s, a) := layout (fixed x) in (alloc_of (fixed x) s a, a)) f = map (fun t => let '(s, a) := layout t in (alloc_of t s a, a)) f).
    { apply map_ext_in. intros x Hx. rewrite List.Forall_forall in IH. rewrite (IH x Hx). destruct (layout x) as [s a]. by rewrite Ha. }
    by rewrite E.
  - rewrite IH. destruct (layout t) as [s a]. by rewrite Ha.
Qed.
Theorem type_equality_layout : forall s t, type_eqb s t = true -> GetTypeStoreSize s = GetTypeStoreSize t /\ GetTypeAlignment s = GetTypeAlignment t /\ GetTypeAllocSize s = GetTypeAllocSize t.
Proof.
  intros s t H. apply type_eqb_iff in H. assert (E : layout s = layout t) by (rewrite <-(layout_fixed s), H; apply layout_fixed). unfold GetTypeAllocSize, GetTypeStoreSize, GetTypeAlignment. rewrite E. split; [done|]. split; [done|]. destruct s, t; cbn [fixed] in H; try done.
Qed.
Print Assumptions type_equality_layout.
Example ex_c47 : let t := TFunction [TPtr; TStruct "a" false false [TBits 8; TArray 2 TPtr]] [TIO; TMem] in no_scalable t /\ type_eqb t t = true /\ type_eqb t TPtr = false /\ type_eqb (TArray 2 TPtr) (TArray 3 TPtr) = false.
Proof. cbn zeta. split; [repeat constructor | by repeat split]. Qed.
