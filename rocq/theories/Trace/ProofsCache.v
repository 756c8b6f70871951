(** Tracing: fuel, caching, where it stops. *)
From stdpp Require Import base list list_numbers fin_sets gmap.
From Verif.Rvsdg Require Import Model Spec Sem Wf WfFacts Det Sim Local Args Refine Chase.
From Verif.Trace Require Import Model Spec ProofsOwners ProofsOrder ProofsThrough ProofsStep ProofsMain.
Local Notation cache := (gmap nat (option nat)).
Local Notation tracer := (option (nat * nat) -> nat -> cache -> outcome (nat * cache)).

Definition le {A} (x y : outcome A) : Prop := x = Fuel \/ y = x.
Lemma le_refl {A} (x : outcome A) : le x x.
Proof. by right. Qed.
Lemma le_bind {A B} (x y : outcome A) (f g : A -> outcome B) : le x y -> (forall a, le (f a) (g a)) -> le (obind x f) (obind y g).
Proof. intros [->| ->] H; [by left|]. destruct x; cbn [obind]; [apply H | by right | by left]. Qed.
Section Fuel.
  Context (cfg : config) (t : region).
  Definition mono (r1 r2 : tracer) : Prop := forall w o c, le (r1 w o c) (r2 w o c).
  Section Rec.
    Context (r1 r2 : tracer) (H : mono r1 r2).
    Lemma mono_branches n k subs : forall b common c, le (gamma_branches cfg t r1 n k b subs common c) (gamma_branches cfg t r2 n k b subs common c).
    Proof using H.
      induction subs as [|s subs IH]; intros b common c; cbn [gamma_branches]; [apply le_refl|]. destruct (rres s !! k) as [x|]; [|apply le_refl].
      apply le_bind; [destruct (deep cfg); [apply H | apply le_refl]|]. intros [y c']. destruct (owner_of t y) as [[|? n' ? ? i|]|]; try apply le_refl. destruct (decide (nid n' = nid n)); [|apply le_refl].
      apply le_bind; [apply le_refl|]. intros z. destruct common as [z'|]; [|apply IH]. destruct (decide (z' = z)); [apply IH | apply le_refl].
    Qed.
    Lemma mono_gamma n k o c : le (try_gamma cfg t r1 n k o c) (try_gamma cfg t r2 n k o c).
    Proof using H. unfold try_gamma. destruct (lookup_in_cache cfg o c); [apply le_refl|]. apply le_bind; [apply mono_branches|]. intros [x c']. apply le_refl. Qed.
    Lemma mono_theta n k o c : le (try_theta cfg t r1 n k o c) (try_theta cfg t r2 n k o c).
    Proof using H.
      unfold try_theta. destruct (lookup_in_cache cfg o c); [apply le_refl|]. destruct (nsubs n !! 0) as [s|]; [|apply le_refl]. destruct (rres s !! S k), (rargs s !! k), (nins n !! k); try apply le_refl.
      apply le_bind; [destruct (deep cfg); [apply H | apply le_refl]|]. intros [y c']. apply le_refl.
    Qed.
    Lemma mono_base w o c : le (base_step cfg t r1 w o c) (base_step cfg t r2 w o c).
    Proof using H.
      unfold base_step. destruct (owner_of t o) as [[r n k|r n b s i|]|]; [| |apply le_refl|apply le_refl].
      - destruct (nkind n); try apply le_refl; (apply le_bind; [|intros [x c']; apply le_refl]); [apply mono_gamma | apply mono_theta].
      - case_decide; [apply le_refl|]. destruct (nkind n); try apply le_refl. destruct (nins n !! i), (nouts n !! i); try apply le_refl. apply le_bind; [apply mono_theta|]. intros [y c']. apply le_refl.
    Qed.
    Lemma mono_step w o c : le (trace_step cfg t r1 w o c) (trace_step cfg t r2 w o c).
    Proof using H. unfold trace_step. apply le_bind; [apply mono_base|]. intros [x c']. apply le_refl. Qed.
  End Rec.
  Lemma mono_trace F F' : F <= F' -> mono (trace_fuel cfg t F) (trace_fuel cfg t F').
  Proof using.
    revert F'. induction F as [|F IH]; intros F' Hle w o c; [by left|]. destruct F' as [|F']; [lia|]. cbn [trace_fuel]. apply le_bind; [apply mono_step, IH; lia|].
    intros [x c']. destruct (decide (x = o)); [apply le_refl | apply IH; lia].
  Qed.
  (** the result is one that a further step does not change *)
  Lemma trace_fix F w o c x c' : trace_fuel cfg t F w o c = Done (x, c') -> exists F' c0, trace_step cfg t (trace_fuel cfg t F') w x c0 = Done (x, c').
  Proof using.
    revert o c. induction F as [|F IH]; intros o c; [done|]. cbn [trace_fuel]. destruct (trace_step cfg t (trace_fuel cfg t F) w o c) as [[y c1]| |] eqn:E; cbn [obind]; [|done|done].
    destruct (decide (y = o)) as [->|]; [|apply IH]. intros [= <- <-]. eauto.
  Qed.
End Fuel.

(** without the cache, the cache stays as it is and is not used *)
Definition uncached (cfg : config) : config := Config (deep cfg) (enter_phi cfg) (interproc cfg) false (llvm cfg) (loaded cfg) (barrier cfg).
Section Plain.
  Context (cfg : config) (t : region) (Hc : caching cfg = false).
  Definition plain (r : tracer) : Prop := forall w o c c', r w o c' = match r w o c with Done (x, _) => Done (x, c') | Failed => Failed | Fuel => Fuel end.
  Section Rec.
    Context (r : tracer) (H : plain r).
    Lemma plain_branches n k subs : forall b common c c', gamma_branches cfg t r n k b subs common c' = match gamma_branches cfg t r n k b subs common c with Done (x, _) => Done (x, c') | Failed => Failed | Fuel => Fuel end.
    Proof using H.
      clear Hc. induction subs as [|s subs IH]; intros b common c c'; cbn [gamma_branches]; [by destruct common|]. destruct (rres s !! k) as [x|]; [|done].
      assert (E : (if deep cfg then r (Some (nid n, b)) x c' else Done (x, c')) = match (if deep cfg then r (Some (nid n, b)) x c else Done (x, c)) with Done (x, _) => Done (x, c') | Failed => Failed | Fuel => Fuel end).
      { destruct (deep cfg); [apply H | done]. }
      rewrite E. destruct (if deep cfg then r (Some (nid n, b)) x c else Done (x, c)) as [[y c1]| |]; cbn [obind]; [|done|done]. destruct (owner_of t y) as [[|? n' ? ? i|]|]; try done. destruct (decide (nid n' = nid n)); [|done].
      destruct (map_branch_argument n i) as [z| |]; cbn [obind]; [|done|done]. destruct common as [z'|]; [|apply IH]. destruct (decide (z' = z)); [apply IH | reflexivity].
    Qed.
    Lemma plain_gamma n k o c c' : try_gamma cfg t r n k o c' = match try_gamma cfg t r n k o c with Done (x, _) => Done (x, c') | Failed => Failed | Fuel => Fuel end.
    Proof using H Hc.
      unfold try_gamma, lookup_in_cache, insert_in_cache. rewrite Hc. rewrite (plain_branches n k (nsubs n) 0 None c c'). destruct (gamma_branches cfg t r n k 0 (nsubs n) None c) as [[x c1]| |]; done.
    Qed.
    Lemma plain_theta n k o c c' : try_theta cfg t r n k o c' = match try_theta cfg t r n k o c with Done (x, _) => Done (x, c') | Failed => Failed | Fuel => Fuel end.
    Proof using H Hc.
      unfold try_theta, lookup_in_cache, insert_in_cache. rewrite Hc. destruct (nsubs n !! 0) as [s|]; [|done]. destruct (rres s !! S k) as [q|], (rargs s !! k), (nins n !! k); try done.
      assert (E : (if deep cfg then r (Some (nid n, 0)) q c' else Done (q, c')) = match (if deep cfg then r (Some (nid n, 0)) q c else Done (q, c)) with Done (x, _) => Done (x, c') | Failed => Failed | Fuel => Fuel end).
      { destruct (deep cfg); [apply H | done]. }
      rewrite E. destruct (if deep cfg then r (Some (nid n, 0)) q c else Done (q, c)) as [[y c1]| |]; cbn [obind]; [|done|done]. case_decide; [done|]. destruct (owner_of t y) as [[|? n' ? ? i|]|]; try done. destruct (decide (nid n' = nid n)); [|done].
      destruct (rres s !! S i), (nins n !! i); done.
    Qed.
    Lemma plain_base w o c c' : base_step cfg t r w o c' = match base_step cfg t r w o c with Done (x, _) => Done (x, c') | Failed => Failed | Fuel => Fuel end.
    Proof using H Hc.
      unfold base_step. destruct (owner_of t o) as [[q n k|q n b s i|]|]; [| |done|done].
      - destruct (nkind n); try done.
        + rewrite (plain_gamma n k o c c'). by destruct (try_gamma cfg t r n k o c) as [[x c1]| |].
        + rewrite (plain_theta n k o c c'). by destruct (try_theta cfg t r n k o c) as [[x c1]| |].
        + destruct (_ && _); [|done]. destruct (nsubs n) as [|s [|]]; try done. by destruct (rres s !! k).
      - case_decide; [done|]. destruct (nkind n); try done.
        + by destruct (map_branch_argument n i).
        + destruct (nins n !! i), (nouts n !! i); try done. rewrite (plain_theta n i n1 c c'). by destruct (try_theta cfg t r n i n1 c) as [[x c1]| |].
        + destruct (_ && _); [|done]. by destruct (nins n !! (i - n0)).
        + destruct (_ && _); [|done]. by destruct (nins n !! (i - length (rres s))).
        + destruct (interproc cfg); [|done]. by destruct (nins n !! i).
    Qed.
    Lemma plain_step w o c c' : trace_step cfg t r w o c' = match trace_step cfg t r w o c with Done (x, _) => Done (x, c') | Failed => Failed | Fuel => Fuel end.
    Proof using H Hc.
      rewrite !trace_step_eq. rewrite (plain_base w o c c'). destruct (base_step cfg t r w o c) as [[x c1]| |]; cbn [obind]; [|done|done]. unfold llvm_part. destruct (llvm cfg); [|done].
      destruct (owner_of t x) as [[q n k|q n b s i|]|]; try done. destruct (nkind n) as [op| | | | | |]; try done; [destruct (barrier cfg op); [|done]; by destruct (nins n !! 0) | destruct (_ && _); [|done]; by destruct (nins n !! k)].
    Qed.
  End Rec.
  Lemma plain_trace F : plain (trace_fuel cfg t F).
  Proof using Hc.
    induction F as [|F IH]; intros w o c c'; [done|]. cbn [trace_fuel]. rewrite (plain_step _ IH w o c c'). destruct (trace_step cfg t _ w o c) as [[x c1]| |]; cbn [obind]; [|done|done].
    destruct (decide (x = o)); [done | apply IH].
  Qed.
End Plain.

Section Cache.
  Context (cfg : config) (t : region) (Hwf : wf t).
  Local Notation u := (uncached cfg).
  Local Notation Hnd := (Hnd t Hwf).
  (** what tracing without a cache gives, with enough fuel *)
  Definition gives {A} (f : nat -> outcome (A * cache)) (x : A) : Prop := exists F, forall F', F <= F' -> f F' = Done (x, ∅).
  Definition Cinv (c : cache) : Prop := forall o x, c !! o = Some x -> exists r n k, owned_at t o (OutputOf r n k) /\
    ((nkind n = Gamma /\ gives (fun F => try_gamma u t (trace_fuel u t F) n k o ∅) x) \/ (nkind n = Theta /\ gives (fun F => try_theta u t (trace_fuel u t F) n k o ∅) x)).
  Definition fits (rec : tracer) : Prop := forall w o c x c', Cinv c -> rec w o c = Done (x, c') -> Cinv c' /\ gives (fun F => trace_fuel u t F w o ∅) x.
  Lemma insert_fits o x y c c' r n k : Cinv c -> insert_in_cache cfg o x c = Done (y, c') -> owned_at t o (OutputOf r n k) ->
    ((nkind n = Gamma /\ gives (fun F => try_gamma u t (trace_fuel u t F) n k o ∅) x) \/ (nkind n = Theta /\ gives (fun F => try_theta u t (trace_fuel u t F) n k o ∅) x)) -> y = x /\ Cinv c'.
  Proof using.
    clear Hwf. intros Hc Hins Ho Hg. unfold insert_in_cache in Hins. destruct (caching cfg); [|by injection Hins as <- <-]. destruct (c !! o); [done|]. injection Hins as <- <-. split; [done|].
    intros o' x' H. destruct (decide (o' = o)) as [->|]; [rewrite lookup_insert in H; injection H as <-; eauto 10 | rewrite lookup_insert_ne in H by done; by apply Hc].
  Qed.
  Section Rec.
    Context (rec : tracer) (H : fits rec).
    Lemma inner_fits id b x c y c' : Cinv c -> (if deep cfg then rec (Some (id, b)) x c else Done (x, c)) = Done (y, c') ->
      Cinv c' /\ gives (fun F => if deep u then trace_fuel u t F (Some (id, b)) x ∅ else Done (x, ∅)) y.
    Proof using H. intros Hc. cbn [deep uncached]. destruct (deep cfg); [by apply H|]. intros [= <- <-]. split; [done|]. by exists 0. Qed.
    Lemma branches_fit n k subs : forall b common c x c', Cinv c -> gamma_branches cfg t rec n k b subs common c = Done (x, c') ->
      Cinv c' /\ gives (fun F => gamma_branches u t (trace_fuel u t F) n k b subs common ∅) x.
    Proof using H.
      induction subs as [|s subs IH]; intros b common c x c' Hc Hg; cbn [gamma_branches] in *; [destruct common; [|done]; injection Hg as <- <-; split; [done|]; by exists 0|].
      destruct (rres s !! k) as [q|]; [|done]. destruct (if deep cfg then _ else _) as [[y c1]| |] eqn:E; cbn [obind] in Hg; [|done|done]. destruct (inner_fits _ _ _ _ _ _ Hc E) as [Hc1 [F1 HF1]].
      assert (Hstop : Done (None, c1) = Done (x, c') -> forall f : nat -> outcome (option nat * cache), (forall F, F1 <= F -> f F = Done (None, ∅)) -> Cinv c' /\ gives f x).
      { intros [= <- <-] f Hf. split; [done|]. exists F1. done. }
      destruct (owner_of t y) as [[|? n' ? ? i|]|] eqn:Eo; try (apply (Hstop Hg); intros F HF; rewrite (HF1 F HF); cbn [obind]; by rewrite Eo).
      destruct (decide (nid n' = nid n)) as [En|En]; [|apply (Hstop Hg); intros F HF; rewrite (HF1 F HF); cbn [obind]; rewrite Eo; by rewrite decide_False].
      destruct (map_branch_argument n i) as [z| |] eqn:Em; cbn [obind] in Hg; [|done|done].
      assert (Hgo : forall com, gamma_branches cfg t rec n k (S b) subs com c1 = Done (x, c') -> forall f, (forall F, F1 <= F -> f F = gamma_branches u t (trace_fuel u t F) n k (S b) subs com ∅) -> Cinv c' /\ gives f x).
      { intros com Hcom f Hf. destruct (IH _ _ _ _ _ Hc1 Hcom) as [G1 [F2 G2]]. split; [done|]. exists (F1 + F2). intros F HF. rewrite Hf by lia. apply G2. lia. }
      destruct common as [z'|].
      - destruct (decide (z' = z)) as [->|Hne].
        + apply (Hgo _ Hg). intros F HF. rewrite (HF1 F HF); cbn [obind]. rewrite Eo, decide_True by done. rewrite Em. cbn [obind]. by rewrite decide_True.
        + apply (Hstop Hg). intros F HF. rewrite (HF1 F HF); cbn [obind]. rewrite Eo, decide_True by done. rewrite Em. cbn [obind]. by rewrite decide_False.
      - apply (Hgo _ Hg). intros F HF. rewrite (HF1 F HF); cbn [obind]. rewrite Eo, decide_True by done. rewrite Em. done.
    Qed.
    Lemma gamma_fits r n k o c x c' : Cinv c -> owned_at t o (OutputOf r n k) -> nkind n = Gamma -> try_gamma cfg t rec n k o c = Done (x, c') -> Cinv c' /\ gives (fun F => try_gamma u t (trace_fuel u t F) n k o ∅) x.
    Proof using H Hwf.
      intros Hc Ho Hk Hg. unfold try_gamma in Hg. destruct (lookup_in_cache cfg o c) as [x0|] eqn:El.
      - injection Hg as <- <-. split; [done|]. unfold lookup_in_cache in El. destruct (caching cfg); [|done]. destruct (Hc o x0 El) as (r' & n' & k' & Ho' & Hg). pose proof (owner_fun t Hnd o _ _ Ho Ho') as E. injection E as <- <- <-. destruct Hg as [[_ Hg]|[Hk' _]]; [done | congruence].
      - destruct (gamma_branches _ _ _ _ _ _ _ _ _) as [[y c1]| |] eqn:E; cbn [obind] in Hg; [|done|done]. destruct (branches_fit _ _ _ _ _ _ _ _ Hc E) as [Hc1 [F HF]].
        assert (Hgv : gives (fun F => try_gamma u t (trace_fuel u t F) n k o ∅) y). { exists F. intros F' HF'. unfold try_gamma, lookup_in_cache, insert_in_cache. cbn [caching uncached]. by rewrite (HF F' HF'). }
        destruct (insert_fits o y x c1 c' r n k Hc1 Hg Ho ltac:(auto)) as [-> Hc']. done.
    Qed.
    Lemma theta_fits r n k o c x c' : Cinv c -> owned_at t o (OutputOf r n k) -> nkind n = Theta -> try_theta cfg t rec n k o c = Done (x, c') -> Cinv c' /\ gives (fun F => try_theta u t (trace_fuel u t F) n k o ∅) x.
    Proof using H Hwf.
      intros Hc Ho Hk Hg. unfold try_theta in Hg. destruct (lookup_in_cache cfg o c) as [x0|] eqn:El.
      - injection Hg as <- <-. split; [done|]. unfold lookup_in_cache in El. destruct (caching cfg); [|done]. destruct (Hc o x0 El) as (r' & n' & k' & Ho' & Hg). pose proof (owner_fun t Hnd o _ _ Ho Ho') as E. injection E as <- <- <-. destruct Hg as [[Hk' _]|[_ Hg]]; [congruence | done].
      - destruct (nsubs n !! 0) as [s|] eqn:Es; [|done]. destruct (rres s !! S k) as [q|] eqn:Eq, (rargs s !! k) as [a|] eqn:Ea, (nins n !! k) as [z|] eqn:Ez; try done.
        destruct (if deep cfg then _ else _) as [[y c1]| |] eqn:E; cbn [obind] in Hg; [|done|done]. destruct (inner_fits _ _ _ _ _ _ Hc E) as [Hc1 [F HF]].
        assert (Hins : forall v, insert_in_cache cfg o v c1 = Done (x, c') -> (forall F', F <= F' -> try_theta u t (trace_fuel u t F') n k o ∅ = Done (v, ∅)) -> Cinv c' /\ gives (fun F => try_theta u t (trace_fuel u t F) n k o ∅) x).
        { intros v Hv Hgv. assert (Hgv' : gives (fun F => try_theta u t (trace_fuel u t F) n k o ∅) v) by (by exists F). destruct (insert_fits o v x c1 c' r n k Hc1 Hv Ho ltac:(auto)) as [-> Hc']. done. }
        assert (Hstart : forall F', F <= F' -> try_theta u t (trace_fuel u t F') n k o ∅ =
          (if decide (y = a) then Done (Some z, ∅) else match owner_of t y with
                       | Some (ArgumentOf _ n' _ _ j) => if decide (nid n' = nid n) then match rres s !! S j, nins n !! j with Some q', Some x' => Done (if decide (q' = y) then Some x' else None, ∅) | _, _ => Failed end else Done (None, ∅)
                       | _ => Done (None, ∅) end)).
        { intros F' HF'. unfold try_theta, lookup_in_cache, insert_in_cache. cbn [caching uncached]. rewrite Es, Eq, Ea, Ez. rewrite (HF F' HF'). done. }
        destruct (decide (y = a)) as [->|Hne]; [by apply (Hins _ Hg)|]. destruct (owner_of t y) as [[|? n' ? ? i|]|] eqn:Eo; try by apply (Hins _ Hg).
        destruct (decide (nid n' = nid n)); [|by apply (Hins _ Hg)]. destruct (rres s !! S i) as [q'|], (nins n !! i) as [x'|]; try done. by apply (Hins _ Hg).
    Qed.
    Lemma base_fits w o c x c' : Cinv c -> base_step cfg t rec w o c = Done (x, c') -> Cinv c' /\ gives (fun F => base_step u t (trace_fuel u t F) w o ∅) x.
    Proof using H Hwf.
      intros Hc Hg. unfold base_step in *. cbn [interproc enter_phi uncached].
      assert (Hnow : forall z (f : nat -> outcome (nat * cache)), Done (z, c) = Done (x, c') -> (forall F, f F = Done (z, ∅)) -> Cinv c' /\ gives f x). { intros z f [= <- <-] Hf. split; [done|]. exists 0. auto. }
      destruct (owner_of t o) as [[q n k|q n b s i|]|] eqn:Eo; [| |by apply (Hnow o)|done].
      - apply (owner_of_iff t Hnd) in Eo. destruct (nkind n) eqn:Ek; try by apply (Hnow o).
        + destruct (try_gamma _ _ _ _ _ _ _) as [[y c1]| |] eqn:E; cbn [obind] in Hg; [|done|done]. injection Hg as <- <-. destruct (gamma_fits q n k o c y c1 Hc Eo Ek E) as [G1 [F G2]]. split; [done|]. exists F. intros F' HF'. by rewrite (G2 F' HF').
        + destruct (try_theta _ _ _ _ _ _ _) as [[y c1]| |] eqn:E; cbn [obind] in Hg; [|done|done]. injection Hg as <- <-. destruct (theta_fits q n k o c y c1 Hc Eo Ek E) as [G1 [F G2]]. split; [done|]. exists F. intros F' HF'. by rewrite (G2 F' HF').
        + destruct (_ && _); [|by apply (Hnow o)]. destruct (nsubs n) as [|s [|]]; try done. destruct (rres s !! k) as [z|]; [|done]. by apply (Hnow z).
      - apply (owner_of_iff t Hnd) in Eo. destruct Eo as (Hq & Hn & Hb & Ha). case_decide; [by apply (Hnow o)|]. destruct (nkind n) as [| | | |m| |] eqn:Ek; try by apply (Hnow o).
        + destruct (map_branch_argument n i) as [z| |]; cbn [obind] in *; [|done|done]. by apply (Hnow z).
        + destruct (nins n !! i) as [z|] eqn:Ez, (nouts n !! i) as [out|] eqn:Eout; try done. destruct (try_theta _ _ _ _ _ _ _) as [[y c1]| |] eqn:E; cbn [obind] in Hg; [|done|done]. injection Hg as <- <-.
          destruct (theta_fits q n i out c y c1 Hc ltac:(done) Ek E) as [G1 [F G2]]. split; [done|]. exists F. intros F' HF'. by rewrite (G2 F' HF').
        + destruct (_ && _); [|by apply (Hnow o)]. destruct (nins n !! (i - m)) as [z|]; [|done]. by apply (Hnow z).
        + destruct (_ && _); [|by apply (Hnow o)]. destruct (nins n !! (i - length (rres s))) as [z|]; [|done]. by apply (Hnow z).
        + destruct (interproc cfg); [|by apply (Hnow o)]. destruct (nins n !! i) as [z|]; [|done]. by apply (Hnow z).
    Qed.
    Lemma step_fits w o c x c' : Cinv c -> trace_step cfg t rec w o c = Done (x, c') -> Cinv c' /\ gives (fun F => trace_step u t (trace_fuel u t F) w o ∅) x.
    Proof using H Hwf.
      intros Hc. rewrite trace_step_eq. destruct (base_step cfg t rec w o c) as [[y c1]| |] eqn:E; cbn [obind]; [|done|done]. destruct (base_fits w o c y c1 Hc E) as [Hc1 [F HF]].
      intros Hl. assert (Hl' : llvm_part u t y ∅ = Done (x, ∅) /\ c' = c1).
      { unfold llvm_part in *. cbn [llvm barrier loaded uncached]. destruct (llvm cfg); [|by injection Hl as <- <-]. destruct (owner_of t y) as [[q n k|q n b s i|]|]; try by injection Hl as <- <-. destruct (nkind n) as [op|op| | |m| |]; try by injection Hl as <- <-.
        - destruct (barrier cfg op); [|by injection Hl as <- <-]. destruct (nins n !! 0); [by injection Hl as <- <- | done].
        - destruct (_ && _); [|by injection Hl as <- <-]. destruct (nins n !! k); [by injection Hl as <- <- | done]. }
      destruct Hl' as [Hl' ->]. split; [done|]. exists F. intros F' HF'. rewrite trace_step_eq, (HF F' HF'). done.
    Qed.
  End Rec.
  Lemma trace_fits F : fits (trace_fuel cfg t F).
  Proof using Hwf.
    induction F as [|F IH]; intros w o c x c' Hc; [done|]. cbn [trace_fuel]. destruct (trace_step cfg t (trace_fuel cfg t F) w o c) as [[y c1]| |] eqn:E; cbn [obind]; [|done|done].
    destruct (step_fits _ IH w o c y c1 Hc E) as [Hc1 [F1 HF1]]. destruct (decide (y = o)) as [->|Hne].
    - intros [= <- <-]. split; [done|]. exists (S F1). intros [|F'] HF'; [lia|]. cbn [trace_fuel]. rewrite (HF1 F') by lia. cbn [obind]. by rewrite decide_True.
    - intros Ht. destruct (IH w y c1 x c' Hc1 Ht) as [Hc' [F2 HF2]]. split; [done|]. exists (S (F1 + F2)). intros [|F'] HF'; [lia|]. cbn [trace_fuel]. rewrite (HF1 F') by lia. cbn [obind]. rewrite decide_False by done. apply HF2. lia.
  Qed.
End Cache.
