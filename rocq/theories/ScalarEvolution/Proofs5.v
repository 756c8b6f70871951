(** Termination of the folding rules, and completeness of the analysis. *)
From Coq Require Import ZArith List Bool Lia Setoid Morphisms.
From stdpp Require Import tactics base list list_numbers gmap.
From Verif.ScalarEvolution Require Import Model Spec Proofs Proofs2 Proofs3 Proofs4.
Local Open Scope Z_scope.

(** One unfolding of the multiplication, with the recursive calls abstracted. *)
Definition mul_F (rm : scev -> scev -> nat -> option scev)
  (rp : chrec -> chrec -> nat -> option chrec) (l r : scev) (out : nat) : option scev :=
    if is_unknown (Some l) || is_unknown (Some r) then Some Unknown else
    match l, r with
    | Chrec ll lo lops, Chrec rl ro rops =>
        if decide (ll = rl)
        then match rp (ll, lo, lops) (rl, ro, rops) out with
             | Some c => Some (as_scev c) | None => None end
        else Some (Chrec ll out [NMul [Chrec ll lo lops; Chrec rl ro rops]])
    | Chrec cl co ops, other | other, Chrec cl co ops =>
        match other with
        | Const 1 => Some (Chrec cl co ops)
        | Const 0 => Some (Const 0)
        | _ => match collect (map (fun o => rm o other out) ops) with
               | Some ops' => Some (Chrec cl out ops') | None => None end
        end
    | NAdd ops, other | other, NAdd ops =>
        match collect (map (fun o => rm o other out) ops) with
        | Some ops' => Some (NAdd ops') | None => None end
    | Init a, Init b => Some (NMul [Init a; Init b])
    | Init a, NMul b | NMul b, Init a => Some (NMul (b ++ [Init a]))
    | Init a, Const c | Const c, Init a =>
        Some (if c =? 1 then Init a else NMul [Init a; Const c])
    | Init a, _ | _, Init a => Some (Init a)
    | NMul a, NMul b => Some (NMul (a ++ b))
    | NMul a, Const c | Const c, NMul a =>
        Some (if c =? 1 then NMul a
              else NMul (fold_const (fun k => match k with
                                              | Const k => Const (wrap64 (k * c))
                                              | _ => Unknown end) (Const c) a))
    | NMul a, _ | _, NMul a => Some (NMul a)
    | Const a, Const b => Some (Const (wrap64 (a * b)))
    | Const a, _ | _, Const a => Some (Const a)
    | _, _ => Some Unknown
    end.
Definition product_F (rm : scev -> scev -> nat -> option scev)
  (rp : chrec -> chrec -> nat -> option chrec) (l r : chrec) (out : nat) : option chrec :=
    let '(ll, lo, lops) := l in
    let '(rl, ro, rops) := r in
    match lops, rops with
    | _, [] => Some (ll, lo, lops)
    | [], _ => Some (rl, ro, rops)
    | [g], _ =>
        match collect (map (fun x => rm g x out) rops) with
        | Some ops => Some (ll, out, ops) | None => None end
    | _, [g] =>
        match collect (map (fun x => rm x g out) lops) with
        | Some ops => Some (ll, out, ops) | None => None end
    | _ :: _ :: _, _ :: _ :: _ =>
        let '(ll, lo, lops, (rl, ro, rops)) :=
          if decide (length lops < length rops)%nat
          then (rl, ro, rops, (ll, lo, lops)) else (ll, lo, lops, (rl, ro, rops)) in
        let lstep := step_recurrence ll lo lops out in
        let rstep := step_recurrence rl ro rops out in
        match as_chrec (ApplyAddFolding (Some (Chrec rl ro rops)) (Some (as_scev rstep)) out) with
        | None => None
        | Some rmarked =>
          match rp (ll, lo, lops) rstep out, rp rmarked lstep out with
          | Some res1, Some res2 =>
            match as_chrec (ApplyAddFolding (Some (as_scev res1)) (Some (as_scev res2)) out) with
            | None => None
            | Some (fl, fo, fops) =>
              match head lops, head rops with
              | Some a, Some b =>
                match rm a b out with
                | Some first => Some (fl, fo, first :: fops)
                | None => None
                end
              | _, _ => None
              end
            end
          | _, _ => None
          end
        end
    end.
Lemma mul_unfold n l r out : mul_fold (S n) l r out = mul_F (mul_fold n) (product n) l r out.
Proof. reflexivity. Qed.
Lemma product_unfold n l r out : product (S n) l r out = product_F (mul_fold n) (product n) l r out.
Proof. reflexivity. Qed.
#[local] Opaque mul_fold product.

Definition le_m (f g : scev -> scev -> nat -> option scev) :=
  forall l r out s, f l r out = Some s -> g l r out = Some s.
Definition le_p (f g : chrec -> chrec -> nat -> option chrec) :=
  forall l r out s, f l r out = Some s -> g l r out = Some s.

Lemma collect_mono (f g : scev -> option scev) ops rs :
  (forall o r, f o = Some r -> g o = Some r) ->
  collect (map f ops) = Some rs -> collect (map g ops) = Some rs.
Proof.
  intros H. revert rs. induction ops as [|o ops IH]; intros rs E; simpl in *; [done|].
  destruct (f o) as [x|] eqn:Ef; [|done]. rewrite (H _ _ Ef).
  destruct (collect (map f ops)) as [r|]; [|done]. by rewrite (IH r eq_refl).
Qed.
Lemma collect_mono_match {A} (mk : list scev -> A) (f g : scev -> option scev) ops (rs : A) :
  (forall o r, f o = Some r -> g o = Some r) ->
  match collect (map f ops) with Some x => Some (mk x) | None => None end = Some rs ->
  match collect (map g ops) with Some x => Some (mk x) | None => None end = Some rs.
Proof.
  intros H E. destruct (collect (map f ops)) as [x|] eqn:Ef; [|done].
  by rewrite (collect_mono f g ops x H Ef).
Qed.

Lemma mul_F_mono rm rm' rp rp' l r out s : le_m rm rm' -> le_p rp rp' ->
  mul_F rm rp l r out = Some s -> mul_F rm' rp' l r out = Some s.
Proof.
  intros Hm Hp.
  assert (C : forall other ops A (mk : list scev -> A) (x : A),
    match collect (map (fun o => rm o other out) ops) with Some x => Some (mk x) | None => None end = Some x ->
    match collect (map (fun o => rm' o other out) ops) with Some x => Some (mk x) | None => None end = Some x).
  { intros other ops A mk x. apply collect_mono_match. intros o r'. apply Hm. }
  unfold mul_F. destruct (_ || _); [done|].
  destruct l as [|o|o|c|l1 l2|l1 l2|L lo lops|aops|mops];
  destruct r as [|o'|o'|c'|r1 r2|r1 r2|L' ro rops|aops'|mops']; try done; try apply C;
  try solve [destruct c as [|[]|]; try done; apply C];
  try solve [destruct c' as [|[]|]; try done; apply C].
  destruct (decide _); [|done]. destruct (rp _ _ out) as [c|] eqn:E; [|done].
  by rewrite (Hp _ _ _ _ E).
Qed.
Lemma product_F_mono rm rm' rp rp' l r out s : le_m rm rm' -> le_p rp rp' ->
  product_F rm rp l r out = Some s -> product_F rm' rp' l r out = Some s.
Proof.
  intros Hm Hp. unfold product_F. destruct l as [[ll lo] lops], r as [[rl ro] rops].
  destruct lops as [|a [|a' lops]], rops as [|b [|b' rops]]; try done;
    try (apply (collect_mono_match (fun ops => (ll, out, ops))); intros o r; apply Hm).
  destruct (if decide _ then _ else _) as [[[ll' lo'] lops'] [[rl' ro'] rops']].
  destruct (as_chrec _) as [rm0|]; [|done].
  destruct (rp (ll', lo', lops') _ out) as [res1|] eqn:E1; [|done].
  destruct (rp rm0 _ out) as [res2|] eqn:E2; [|done].
  rewrite (Hp _ _ _ _ E1), (Hp _ _ _ _ E2).
  destruct (as_chrec _) as [[[fl fo] fops]|]; [|done].
  destruct (head lops'); [|done]. destruct (head rops'); [|done].
  destruct (rm _ _ out) eqn:E3; [|done]. by rewrite (Hm _ _ _ _ E3).
Qed.
Lemma fuel_mono_S n : le_m (mul_fold n) (mul_fold (S n)) /\ le_p (product n) (product (S n)).
Proof.
  induction n as [|n [IHm IHp]]; [split; intros ?????; discriminate|].
  split; intros l r out s.
  - rewrite !mul_unfold. by apply mul_F_mono.
  - rewrite !product_unfold. by apply product_F_mono.
Qed.
Lemma mul_mono n m l r out s : (n <= m)%nat -> mul_fold n l r out = Some s -> mul_fold m l r out = Some s.
Proof. induction 1; [done|]. intros H1. by apply fuel_mono_S, IHle. Qed.
Lemma product_mono n m l r out s : (n <= m)%nat -> product n l r out = Some s -> product m l r out = Some s.
Proof. induction 1; [done|]. intros H1. by apply fuel_mono_S, IHle. Qed.

Lemma collect_total (f : scev -> option scev) ops :
  (forall o, o ∈ ops -> exists r, f o = Some r) -> exists rs, collect (map f ops) = Some rs.
Proof.
  induction ops as [|o ops IH]; intros H; simpl; [eauto|].
  destruct (H o) as [r ->]; [left|]. destruct IH as [rs ->]; [|eauto].
  intros o' Ho. apply H. by right.
Qed.
Lemma sum_list_in x (ops : list scev) : x ∈ ops -> (size x <= sum_list (map size ops))%nat.
Proof.
  intros H. induction H as [x ops|x y ops H IH]; simpl; lia.
Qed.

Lemma mul_flat_total n : forall l r out, flat l -> flat r -> (size l + size r < n)%nat ->
  exists s, mul_fold n l r out = Some s.
Proof.
  induction n as [|n IH]; intros l r out Fl Fr Hn; [lia|].
  assert (C : forall ops other, flat (NAdd ops) -> flat other ->
    (size (NAdd ops) + size other < S n)%nat ->
    exists s, match collect (map (fun o => mul_fold n o other out) ops) with
      | Some x => Some (NAdd x) | None => None end = Some s).
  { clear -IH. intros ops other [_ F%all_Forall] Fo Hn.
    destruct (collect_total (fun o => mul_fold n o other out) ops) as [rs ->]; [|eauto].
    intros o Ho. apply IH; [|done|].
    - rewrite List.Forall_forall in F. apply F. by apply elem_of_list_In.
    - apply sum_list_in in Ho. simpl in Hn. lia. }
  rewrite mul_unfold.
  destruct l as [|o|o|c|l1 l2|l1 l2|L lo lops|aops|mops]; try done;
  destruct r as [|o'|o'|c'|r1 r2|r1 r2|L' ro rops|aops'|mops']; try done;
  unfold mul_F; simpl is_unknown; simpl orb; cbv iota; eauto;
  try (by apply C); apply C; try done; lia.
Qed.

Lemma pairwise_ne n a b out : a <> [] -> pairwise n a b out <> [].
Proof.
  intros Ha E. apply (f_equal length) in E. rewrite pairwise_length in E.
  destruct a; [done|]. simpl in E. destruct (length b); simpl in E; lia.
Qed.

Lemma product_total k : forall L lo ro a b out, (length a + length b <= k)%nat ->
  a <> [] -> b <> [] -> Forall flat a -> Forall flat b ->
  exists N c, product N (L, lo, a) (L, ro, b) out = Some c.
Proof.
  induction k as [|k IH]; intros L lo ro a b out Hk Na Nb Fa Fb; [destruct a; simpl in Hk; [done|lia]|].
  destruct a as [|x a]; [done|]. destruct b as [|y b]; [done|].
  destruct a as [|x' a].
  { exists (S (S (size x + sum_list (map size (y :: b))))). rewrite product_unfold.
    apply Forall_cons_1 in Fa as [Fx _].
    destruct (collect_total (fun o => mul_fold (S (size x + sum_list (map size (y :: b)))) x o out) (y :: b)) as [rs E].
    - intros o Ho. apply mul_flat_total; [done| |].
      + rewrite List.Forall_forall in Fb. apply Fb. by apply elem_of_list_In.
      + apply sum_list_in in Ho. lia.
    - unfold product_F. rewrite E. eauto. }
  destruct b as [|y' b].
  { exists (S (S (size y + sum_list (map size (x :: x' :: a))))). rewrite product_unfold.
    apply Forall_cons_1 in Fb as [Fy _].
    destruct (collect_total (fun o => mul_fold (S (size y + sum_list (map size (x :: x' :: a)))) o y out) (x :: x' :: a)) as [rs E].
    - intros o Ho. apply mul_flat_total; [|done|].
      + rewrite List.Forall_forall in Fa. apply Fa. by apply elem_of_list_In.
      + apply sum_list_in in Ho. lia.
    - unfold product_F. rewrite E. eauto. }
  assert (G : forall X Y xo yo, Forall flat X -> Forall flat Y -> (length X + length Y <= S k)%nat ->
    (2 <= length X)%nat -> (2 <= length Y)%nat ->
    exists N c, product_step N L xo X yo Y out = Some c).
  { clear -IH. intros X Y xo yo FX FY Hl HX HY. unfold product_step.
    assert (NX : X <> []) by (by destruct X; simpl in HX; [lia|]).
    assert (NY : Y <> []) by (by destruct Y; simpl in HY; [lia|]).
    destruct (step_recurrence_tail L xo X out (flat_chrec_good L xo X NX FX) HX) as (xo' & EX & _).
    destruct (step_recurrence_tail L yo Y out (flat_chrec_good L yo Y NY FY) HY) as (yo' & EY & _).
    rewrite EX, EY. simpl as_scev.
    destruct (add_chrecs2 L yo yo' Y (tail Y) out) as (m & Hm & Em). rewrite Em.
    simpl as_chrec.
    destruct X as [|a [|a' X]]; [done|simpl in HX; lia|]. destruct Y as [|b [|b' Y]]; [done|simpl in HY; lia|].
    simpl tail in *. pose proof (Forall_cons_1 _ _ _ FX) as [Fa FX']. pose proof (Forall_cons_1 _ _ _ FY) as [Fb FY'].
    destruct (IH L xo yo' (a :: a' :: X) (b' :: Y) out) as (N1 & c1 & E1); try done; [simpl in *; lia|].
    destruct (IH L out xo' (pairwise m (b :: b' :: Y) (b' :: Y) out) (a' :: X) out) as (N2 & c2 & E2);
      [rewrite pairwise_length; simpl in *; lia|by apply pairwise_ne|done|by apply pairwise_flat|done|].
    destruct c1 as [[l1 o1] r1], c2 as [[l2 o2] r2].
    pose proof E1 as E1'. pose proof E2 as E2'.
    apply product_flat in E1' as (-> & _); try done.
    apply product_flat in E2' as (-> & _); [|by apply pairwise_ne|done|by apply pairwise_flat|done].
    destruct (mul_flat_total (S (size a + size b)) a b out Fa Fb) as [f Ef]; [lia|].
    exists (N1 + N2 + S (size a + size b))%nat.
    rewrite (product_mono N1 (N1 + N2 + S (size a + size b)) _ _ _ _ ltac:(lia) E1).
    rewrite (product_mono N2 (N1 + N2 + S (size a + size b)) _ _ _ _ ltac:(lia) E2).
    simpl as_scev. destruct (add_chrecs2 L o1 o2 r1 r2 out) as (k' & Hk' & Ek). rewrite Ek. cbn -[mul_fold Nat.add size].
    rewrite (mul_mono (S (size a + size b)) (N1 + N2 + S (size a + size b)) _ _ _ _ ltac:(lia) Ef).
    eauto. }
  assert (H' : exists N c, (if decide (length (x :: x' :: a) < length (y :: y' :: b))%nat
     then product_step N L ro (y :: y' :: b) lo (x :: x' :: a) out
     else product_step N L lo (x :: x' :: a) ro (y :: y' :: b) out) = Some c).
  { destruct (decide _); apply G; try done; simpl in *; lia. }
  destruct H' as (N & c & E). exists (S N), c. rewrite product_unfold, <- E.
  unfold product_F, product_step. destruct (decide _); reflexivity.
Qed.
