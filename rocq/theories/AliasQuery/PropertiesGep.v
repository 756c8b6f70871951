(** Constant indices and offsets: the theorems. *)
From stdpp Require Import base list option.
From Coq Require Import ZArith Lia String.
From Verif.MathUtil Require Import Model Spec Proofs.
From Verif.Types Require Import Model Spec Proofs Proofs2.
From Verif.AliasQuery Require Import Model ModelGep SpecGep.
Local Open Scope Z_scope.

Lemma pow_split k n : 0 <= k <= n -> 2 ^ n = 2 ^ (n - k) * 2 ^ k.
Proof. intros H. rewrite <-Z.pow_add_r by lia. f_equal. lia. Qed.
Lemma pow_half k : 1 <= k -> 2 ^ k = 2 * 2 ^ (k - 1).
Proof. intros H. replace k with (Z.succ (k - 1)) at 1 by lia. by rewrite Z.pow_succ_r by lia. Qed.
Lemma pos_pow k : 0 <= k -> 0 < 2 ^ k.
Proof. intros H. by apply Z.pow_pos_nonneg. Qed.
(** the reading is unique *)
Lemma multiple_small a q n : - n < a < n -> a = q * n -> a = 0.
Proof. intros H E. assert (q = 0) by (destruct (Z.lt_trichotomy q 0) as [H0|[H0|H0]]; [nia | done | nia]). subst. lia. Qed.
Lemma sign_unique v v' k r r' : 1 <= k -> is_sign_extension v k r -> is_sign_extension v' k r' -> (exists q, v = v' + q * 2 ^ k) -> r = r'.
Proof.
  intros Hk [H1 [q Hq]] [H2 [q' Hq']] [p Hp]. pose proof (pow_half k Hk). enough (r - r' = 0) by lia. apply (multiple_small _ (q' - q + p) (2 ^ k)); lia.
Qed.
Lemma sign_congr v v' k r : is_sign_extension v k r -> (exists q, v' = v + q * 2 ^ k) -> is_sign_extension v' k r.
Proof. intros [H [q Hq]] [p Hp]. split; [done|]. exists (q + p). lia. Qed.
Lemma value_range e v : well_typed e -> value e = Some v -> 0 <= v < 2 ^ width e.
Proof.
  revert v. induction e as [w u k|s d e IH|s d e IH|s d e IH|w]; intros v; cbn.
  - intros [_ H]. destruct k; [|done]. by intros [= <-].
  - intros (Hw & Hs & Hd). destruct (value e) as [u|]; [|done]. cbn. intros [= <-]. apply Z.mod_pos_bound, pos_pow. lia.
  - intros (Hw & Hs & Hd) Hv. specialize (IH v Hw Hv). rewrite Hs in IH. split; [lia|]. assert (2 ^ s <= 2 ^ d) by (apply Z.pow_le_mono_r; lia). lia.
  - intros (Hw & Hs & Hd). destruct (value e) as [u|]; [|done]. cbn. intros [= <-]. apply Z.mod_pos_bound, pos_pow. lia.
  - done.
Qed.
Lemma signed_ext k v : 1 <= k -> 0 <= v < 2 ^ k -> is_sign_extension v k (if 2 ^ (k - 1) <=? v then v - 2 ^ k else v).
Proof. intros Hk Hv. pose proof (pow_half k Hk). destruct (Z.leb_spec (2 ^ (k - 1)) v); (split; [lia|]); [exists 1 | exists 0]; lia. Qed.

Lemma try_constant_sound e : well_typed e -> in_64_bits e -> match try_constant e with
  | Done (Some z) => exists v, value e = Some v /\ is_sign_extension v (Z.min (width e) 64) z
  | Done None => small_constants e -> value e = None
  | _ => False end.
Proof.
  induction e as [w u k|s d e IH|s d e IH|s d e IH|w]; cbn.
  - intros [Hw Hu] _. destruct k; cbn; [|done]. destruct (bool_decide (w <= 64)) eqn:E; [|apply bool_decide_eq_false in E; lia]. apply bool_decide_eq_true in E. exists u. split; [done|]. rewrite Z.min_l by done.
    pose proof (signed_ext w u Hw Hu) as H. unfold to_int. destruct (Z.leb_spec (2 ^ (w - 1)) u), (decide (2 ^ (w - 1) <= u)); try lia; done.
  - intros (Hw & Hs & Hd) [H64 Hin]. specialize (IH Hw Hin). destruct (try_constant e) as [[z|]| |]; cbn; [|intros H; by rewrite IH|done|done]. destruct IH as (v & Hv & Hz). rewrite Hv. cbn.
    unfold extend. rewrite decide_True by done. destruct (sign_extend_ok z s ltac:(lia)) as (r & -> & Hr). eexists. split; [done|].
    rewrite Hs, Z.min_l in Hz by done. pose proof (value_range e v Hw Hv) as Hb. rewrite Hs in Hb. pose proof (signed_ext s v ltac:(lia) Hb) as Hsv. set (sv := if _ <=? _ then _ else _) in *.
    assert (sv = r) as ->. { eapply sign_unique; [|exact Hsv | exact Hr|]; [lia|]. by destruct Hz as [_ [q Hq]]; exists q. }
    split.
    + destruct Hr as [Hr _]. assert (2 ^ (s - 1) <= 2 ^ (Z.min d 64 - 1)) by (apply Z.pow_le_mono_r; lia). lia.
    + pose proof (Z.div_mod r (2 ^ d) ltac:(pose proof (pos_pow d); lia)) as E. rewrite (pow_split (Z.min d 64) d) in E at 1 by lia. exists (- (r / 2 ^ d) * 2 ^ (d - Z.min d 64)). lia.
  - intros (Hw & Hs & Hd) [H64 Hin]. specialize (IH Hw Hin). destruct (try_constant e) as [[z|]| |]; cbn; [|done|done|done]. destruct IH as (v & Hv & Hz).
    unfold extend. rewrite decide_True by done. pose proof (value_range e v Hw Hv) as Hb. rewrite Hs in Hb. rewrite Hs, Z.min_l in Hz by done. destruct (decide (s = 64)) as [->|Hn].
    + rewrite zero_extend_64. exists v. split; [done|]. rewrite Z.min_r by lia. rewrite convert_id; [done | cbn; lia|]. destruct Hz as [Hz _]. unfold in_range, tmin, tmax. cbn. lia.
    + destruct (zero_extend_ok z s ltac:(lia)) as (r & -> & Hr). exists v. split; [done|]. destruct Hr as [Hr [q Hq]]. destruct Hz as [Hz [q' Hq']].
      assert (v = r) as ->. { enough (v - r = 0) by lia. apply (multiple_small _ (q + q') (2 ^ s)); lia. }
      split; [|exists 0; lia]. assert (2 ^ s <= 2 ^ (Z.min d 64 - 1)) by (apply Z.pow_le_mono_r; lia). pose proof (pos_pow s). lia.
  - intros (Hw & Hs & Hd) [H64 Hin]. specialize (IH Hw Hin). destruct (try_constant e) as [[z|]| |]; cbn; [|intros H; by rewrite IH|done|done]. destruct IH as (v & Hv & Hz). rewrite Hv. cbn.
    unfold extend. rewrite decide_True by done. destruct (sign_extend_ok z d ltac:(lia)) as (r & -> & Hr). eexists. split; [done|]. rewrite Z.min_l by done.
    eapply sign_congr; [exact Hr|]. destruct Hz as [_ [q Hq]]. rewrite Hs in Hq. rewrite (pow_split d (Z.min s 64)) in Hq by lia.
    pose proof (Z.div_mod v (2 ^ d) ltac:(pose proof (pos_pow d); lia)) as E. exists (q * 2 ^ (Z.min s 64 - d) - v / 2 ^ d). lia.
  - done.
Qed.
(** C81: a constant found for an integer output is the signed reading of the lowest 64 bits of its value *)
Theorem constant_exact e z : well_typed e -> in_64_bits e -> try_constant e = Done (Some z) -> exists v, value e = Some v /\ is_sign_extension v (Z.min (width e) 64) z.
Proof. intros H1 H2 E. pose proof (try_constant_sound e H1 H2) as H. by rewrite E in H. Qed.
(** C81: and every constant made from constants of at most 64 bits is found, without failing an assertion *)
Theorem constant_found e v : well_typed e -> in_64_bits e -> small_constants e -> value e = Some v -> exists z, try_constant e = Done (Some z).
Proof. intros H1 H2 H3 Hv. pose proof (try_constant_sound e H1 H2) as H. destruct (try_constant e) as [[z|]| |]; [by exists z | | done | done]. rewrite H in Hv by done. done. Qed.
(** C81: with more than 64 bits in between an assertion fails: the extension to 256 bits of the extension to 128 bits of a 64 bit constant *)
Theorem constant_wide_refuted v : 0 <= v < 2 ^ 64 -> let e := CSext 128 256 (CZext 64 128 (CInt 64 v true)) in well_typed e /\ value e = Some v /\ try_constant e = Failed.
Proof.
  intros Hv e. split; [cbn; repeat split; lia|]. split.
  - cbn. destruct (Z.leb_spec (2 ^ (128 - 1)) v) as [H|H]; [exfalso; assert (2 ^ 64 < 2 ^ (128 - 1)) by done; lia|]. rewrite Z.mod_small; [done|]. assert (2 ^ 64 < 2 ^ 256) by done. lia.
  - assert (E : try_constant (CZext 64 128 (CInt 64 v true)) = Done (Some (convert int64 (to_int 64 v)))).
    { cbn [try_constant andb]. rewrite bool_decide_eq_true_2 by lia. cbn [obind]. unfold extend. rewrite decide_True by lia. by rewrite zero_extend_64. }
    subst e. cbn [try_constant] in E |- *. rewrite E. cbn [obind]. unfold extend. by rewrite decide_False by lia.
Qed.

Lemma wrap_add a b : wrap (wrap a + b) = wrap (a + b).
Proof. unfold wrap. by rewrite Zplus_mod_idemp_l. Qed.
Lemma wrap_add_r a b : wrap (a + wrap b) = wrap (a + b).
Proof. unfold wrap. by rewrite Zplus_mod_idemp_r. Qed.
Lemma wrap_mul a b : wrap (wrap a * b) = wrap (a * b).
Proof. unfold wrap. by rewrite Zmult_mod_idemp_l. Qed.
Lemma convert_wrap z : convert int64 (wrap z) = convert int64 z.
Proof. unfold convert, int64, wrap. cbn. by rewrite Zplus_mod_idemp_l. Qed.
Lemma fields_end_ends (packed : bool) l : forall start, foldl (fun e '(size, align) => ceil_to e (if packed then 1 else align) + size) start (map (fun t => (plain_alloc t, plain_align t)) l) = ends packed start (map plain_pair l).
Proof. induction l as [|t l IH]; intros start; [done|]. cbn. rewrite IH. f_equal. Qed.

Lemma plain_field_ok packed fields i f : Forall fits fields -> fields_end packed (map plain_pair fields) <= 2 ^ 60 -> fields !! i = Some f -> GetFieldOffset packed fields i = Some (plain_field packed fields i f).
Proof.
  intros Hf He Hi. unfold GetFieldOffset. rewrite offset_loop_ok; [|done|lia|done]. unfold plain_field, fields_end. clear Hf He. generalize (0%Z); revert i Hi. induction fields as [|t l IH]; intros i Hi start; [done|].
  destruct i as [|i]; cbn in Hi |- *; [injection Hi as ->; done|]. by rewrite IH.
Qed.
Lemma fits_fields name packed literal l : fits (TStruct name packed literal l) -> Forall fits l /\ fields_end packed (map plain_pair l) <= 2 ^ 60.
Proof.
  intros H. inversion H as [| | | |? ? ? ? Hl H1| |]; subst. split; [done|]. unfold plain_store in H1. rewrite plain_struct in H1. cbn [fst] in H1. pose proof (ceil_to_ge (fields_end packed (map plain_pair l)) _ (max_align_pos packed l)). lia.
Qed.
Lemma intra_exact l : forall t z, fits t -> Forall (fun i => - 2 ^ 63 <= i < 2 ^ 63) l -> plain_intra t l = Some z -> exists r, intra_offset t (map wrap l) = Some r /\ wrap r = wrap z.
Proof.
  induction l as [|i l IH]; intros t z Hf Hr; cbn [plain_intra intra_offset map]; [intros [= <-]; by exists 0|]. inversion Hr as [|? ? Hi Hl]; subst.
  destruct t as [| |n e| | |name packed literal fields| | | |]; try done.
  - destruct (plain_intra e l) as [r|] eqn:E; [|done]. cbn [mbind option_bind]. intros [= <-]. assert (He : fits e) by (by inversion Hf). destruct (IH e r He Hl E) as (r' & Er & Hw).
    destruct (layout_exact e He) as (_ & _ & ->). cbn [mbind option_bind]. rewrite Er. cbn [mbind option_bind]. eexists. split; [done|]. unfold add64, mul64. rewrite wrap_mul, wrap_add. rewrite <-wrap_add_r, Hw, wrap_add_r.
    unfold wrap. by rewrite Z.mod_mod.
  - destruct (Z.ltb_spec i 0) as [|Hi0]; [done|]. rewrite (wrap_id i) by lia. destruct (fields !! Z.to_nat i) as [f|] eqn:Ef; [|done]. cbn [mbind option_bind]. destruct (plain_intra f l) as [r|] eqn:E; [|done]. cbn [mbind option_bind]. intros [= <-].
    destruct (fits_fields _ _ _ _ Hf) as [Hfl He]. assert (Hff : fits f) by (exact (Forall_lookup_1 _ _ _ _ Hfl Ef)). destruct (IH f r Hff Hl E) as (r' & Er & Hw).
    rewrite (plain_field_ok _ _ _ _ Hfl He Ef), Er. cbn [mbind option_bind]. eexists. split; [done|]. unfold add64. rewrite <-wrap_add_r, Hw, wrap_add_r. unfold wrap. by rewrite Z.mod_mod.
Qed.
(** C81: the byte offset of a GEP is that of plain arithmetic, as a signed 64 bit number *)
Theorem gep_offset_exact t l z : fits t -> Forall (fun i => - 2 ^ 63 <= i < 2 ^ 63) l -> plain_gep t l = Some z ->
  exists r, gep_offset t (map wrap l) = Some r /\ is_sign_extension z 64 r.
Proof.
  intros Hf Hr. unfold plain_gep, gep_offset. destruct l as [|i l]; [done|]. cbn [map]. inversion Hr as [|? ? Hi Hl]; subst. destruct (plain_intra t l) as [r|] eqn:E; [|done]. cbn [mbind option_bind]. intros [= <-].
  destruct (intra_exact l t r Hf Hl E) as (r' & Er & Hw). destruct (layout_exact t Hf) as (_ & _ & ->). cbn [mbind option_bind]. rewrite Er. cbn [mbind option_bind]. eexists. split; [done|].
  assert (Ec : convert int64 (add64 (mul64 (wrap i) (plain_alloc t)) r') = convert int64 (i * plain_alloc t + r)).
  { rewrite <-(convert_wrap (i * plain_alloc t + r)). f_equal. unfold add64, mul64. rewrite wrap_mul, wrap_add. by rewrite <-wrap_add_r, Hw, wrap_add_r. }
  rewrite Ec. pose proof (convert_range int64 (i * plain_alloc t + r) ltac:(cbn; lia)) as Hc. destruct (convert_cong int64 (i * plain_alloc t + r) ltac:(cbn; lia)) as [q Hq].
  split; [unfold in_range, tmin, tmax in Hc; cbn in Hc |- *; lia|]. exists q. exact Hq.
Qed.
(** C81: indices into vectors, which GEPs can have, end the program *)
Theorem gep_offset_vector_refuted n e i l : gep_offset (TArray 4 (TVector false n e)) (0 :: 0 :: i :: l) = None.
Proof. unfold gep_offset. destruct (GetTypeAllocSize (TArray 4 (TVector false n e))); [|done]. cbn [mbind option_bind intra_offset]. by destruct (GetTypeAllocSize (TVector false n e)). Qed.

Lemma wrap_zero z : - 2 ^ 63 <= z < 2 ^ 63 -> z = 0 -> wrap z = 0.
Proof. by intros _ ->. Qed.
Lemma plain_intra_zero l : forall t z, Forall (fun i => i = 0) l -> plain_intra t l = Some z -> z = 0.
Proof.
  induction l as [|i l IH]; intros t z Hl; cbn [plain_intra]; [by intros [= <-]|]. inversion Hl as [|? ? -> Hl']; subst. destruct t as [| |n e| | |name packed literal fields| | | |]; try done.
  - destruct (plain_intra e l) as [r|] eqn:E; [|done]. cbn [mbind option_bind]. intros [= <-]. by rewrite (IH e r Hl' E).
  - change (0 <? 0) with false. change (Z.to_nat 0) with 0%nat. destruct fields as [|f fields]; [done|]. cbn [lookup list_lookup mbind option_bind]. destruct (plain_intra f l) as [r|] eqn:E; [|done]. cbn [mbind option_bind]. intros [= <-]. rewrite (IH f r Hl' E). unfold plain_field. cbn. unfold ceil_to. rewrite Z.add_0_r.
    destruct packed; [done|]. pose proof (plain_align_pos f). rewrite Z.div_small by lia. done.
Qed.
Lemma zeros (l : list iexp) : Forall (fun i => i = 0) (map (fun _ => 0) l).
Proof. by induction l; constructor. Qed.
(** C81: a GEP that is replaced by its base address adds nothing to the base address *)
Theorem idempotent_gep_is_base t l : Forall (fun e => well_typed e /\ in_64_bits e) l -> is_idempotent l = Done true ->
  exists vs, Forall2 (fun e v => exists u, value e = Some u /\ is_sign_extension u (Z.min (width e) 64) v) l vs /\ forall z, plain_gep t vs = Some z -> z = 0.
Proof.
  intros Hl Hi. exists (map (fun _ => 0) l). split.
  - revert Hi. induction Hl as [|e l [Hw H64] Hl IH]; intros Hi; [constructor|]. cbn in Hi |- *. pose proof (try_constant_sound e Hw H64) as H. destruct (try_constant e) as [[z|]| |]; cbn in Hi; try done.
    destruct (decide (Some z = Some 0)) as [[= ->]|]; [|done]. constructor; [done|]. by apply IH.
  - intros z. unfold plain_gep. destruct l as [|e l]; [done|]. cbn. destruct (plain_intra t (map (fun _ => 0) l)) as [r|] eqn:E; [|done]. intros [= <-]. rewrite (plain_intra_zero _ t r (zeros l) E). lia.
Qed.

(** struct { i8; [3 x i32] }*, indices -1, 1, and 2 that is computed from an 8 bit constant *)
Definition ex_type : ty := TStruct "s"%string false false [TBits 8; TArray 3 (TBits 32)].
Example ex_fits : fits ex_type.
Proof. repeat constructor; vm_compute; intros; discriminate. Qed.
Definition ex_index : iexp := CZext 8 64 (CTrunc 32 8 (CSext 16 32 (CInt 16 65282 true))).
Example ex_const : well_typed ex_index /\ in_64_bits ex_index /\ small_constants ex_index /\ try_constant ex_index = Done (Some 2) /\ value ex_index = Some 2.
Proof. repeat split; vm_compute; intros; congruence. Qed.
Example ex_offset : plain_gep ex_type [-1; 1; 2] = Some (-4) /\ gep_offset ex_type (map wrap [-1; 1; 2]) = Some (-4).
Proof. by split; vm_compute. Qed.
Example ex_idem : is_idempotent [CInt 32 0 true; CSext 8 64 (CInt 8 0 true)] = Done true.
Proof. done. Qed.
