From Coq Require Import List Ascii Arith Lia.
From Verif.FilePath Require Import Model.
Import ListNotations.

Lemma find_last_none c s : find_last c s = None <-> ~ In c s.
Proof.
  induction s as [|x s IH]; simpl; [tauto|].
  destruct (find_last c s).
  - split; [discriminate|]. intros H. exfalso. apply H. right.
    destruct (in_dec ascii_dec c s) as [Hi|Hn]; [exact Hi|]. apply IH in Hn. discriminate.
  - destruct (Ascii.eqb_spec x c) as [->|Hne].
    + split; [discriminate|]. intros H. exfalso. auto.
    + split; [|reflexivity]. intros _ [H|H]; [congruence|]. now apply IH in H.
Qed.
Lemma find_last_app c s t : ~ In c t -> find_last c (s ++ c :: t) = Some (length s).
Proof.
  intros Ht. induction s as [|x s IH]; simpl.
  - destruct (find_last c t) eqn:E.
    + apply find_last_none in Ht. congruence.
    + now rewrite Ascii.eqb_refl.
  - now rewrite IH.
Qed.
Lemma find_first_none c s : find_first c s = None <-> ~ In c s.
Proof.
  induction s as [|x s IH]; simpl; [tauto|].
  destruct (Ascii.eqb_spec x c) as [->|Hne].
  - split; [discriminate|]. intros H. exfalso. auto.
  - destruct (find_first c s); simpl.
    + split; [discriminate|]. intros H. exfalso.
      assert (~ In c s) as Hn by auto. apply IH in Hn. discriminate.
    + split; [|reflexivity]. intros _ [H|H]; [congruence|]. now apply IH in H.
Qed.
Lemma find_first_app c s t : ~ In c s -> find_first c (s ++ c :: t) = Some (length s).
Proof.
  induction s as [|x s IH]; intros Hs; simpl.
  - now rewrite Ascii.eqb_refl.
  - destruct (Ascii.eqb_spec x c) as [->|Hne]; [exfalso; apply Hs; now left|].
    rewrite IH; [reflexivity|]. intros H. apply Hs. now right.
Qed.

Lemma split_last c (s : str) : In c s -> exists a b, s = a ++ c :: b /\ ~ In c b.
Proof.
  induction s as [|x s IH]; intros H; [destruct H|].
  destruct (in_dec ascii_dec c s) as [Hi|Hn].
  - destruct (IH Hi) as (a & b & -> & Hb). exists (x :: a), b. auto.
  - destruct H as [->|H]; [|contradiction]. exists [], s. auto.
Qed.

Lemma substr_after (a : str) c b n : length b <= n -> substr (a ++ c :: b) (length a + 1) n = b.
Proof.
  intros Hn. unfold substr. rewrite skipn_app.
  replace (length a + 1 - length a) with 1 by lia.
  rewrite skipn_all2 by lia. simpl. now rewrite firstn_all2 by lia.
Qed.
Lemma substr_before (a b : str) : substr (a ++ b) 0 (length a) = a.
Proof.
  unfold substr. simpl. rewrite firstn_app. replace (length a - length a) with 0 by lia.
  simpl. now rewrite firstn_all, app_nil_r.
Qed.

Lemma name_no_dir n : ~ In slash n -> name n = n.
Proof. intros H. unfold name. apply find_last_none in H. now rewrite H. Qed.
Lemma name_dir d n : ~ In slash n -> name (d ++ slash :: n) = n.
Proof.
  intros H. unfold name. rewrite find_last_app by assumption.
  rewrite app_length. simpl. apply substr_after. lia.
Qed.

Lemma name_no_slash p : ~ In slash (name p).
Proof.
  destruct (in_dec ascii_dec slash p) as [Hi|Hn].
  - destruct (split_last _ _ Hi) as (a & b & -> & Hb). now rewrite name_dir.
  - now rewrite name_no_dir.
Qed.

Lemma base_dot p b e : name p = b ++ dot :: e -> ~ In dot b -> base p = b /\ complete_suffix p = e.
Proof.
  intros Hn Hb. unfold base, complete_suffix. rewrite Hn, find_first_app by assumption. split.
  - apply substr_before.
  - apply substr_after. rewrite app_length. simpl. lia.
Qed.
Lemma suffix_dot p b e : name p = b ++ dot :: e -> ~ In dot e -> suffix p = e.
Proof.
  intros Hn He. unfold suffix. rewrite Hn, find_last_app by assumption.
  apply substr_after. rewrite app_length. simpl. lia.
Qed.
Lemma no_dot p : ~ In dot (name p) -> base p = name p /\ suffix p = name p /\ complete_suffix p = name p.
Proof.
  intros H. unfold base, suffix, complete_suffix.
  pose proof H as H'. apply find_first_none in H. apply find_last_none in H'. now rewrite H, H'.
Qed.

(** Dirname *)
Lemma str_eqb_false a b : a <> b -> str_eqb a b = false.
Proof. unfold str_eqb. destruct (list_eq_dec ascii_dec a b); congruence. Qed.

Lemma dirname_split d n t :
  ~ In slash n -> (n <> [] /\ (t = [] \/ t = [slash]) \/ n = [] /\ t = [slash]) ->
  Dirname (d ++ slash :: n ++ t) = match d with [] => [slash] | _ => d end.
Proof.
  intros Hn Ht.
  set (p := d ++ slash :: n ++ t).
  assert (2 <= length p) as Hlen.
  { unfold p. rewrite app_length. simpl. rewrite app_length.
    destruct Ht as [[Hne _]|[_ ->]]; [|simpl; lia].
    destruct n; [congruence|simpl; lia]. }
  assert (exists n', firstn (S (length p - 2)) p = d ++ slash :: n' /\ ~ In slash n') as (n' & Hp & Hn').
  { replace (S (length p - 2)) with (length p - 1) by lia.
    destruct Ht as [[Hne [-> | ->]]|[-> ->]].
    - (* drop the last character of n *)
      destruct (exists_last Hne) as (m & x & ->). exists m. split.
      + unfold p. rewrite app_nil_r, app_comm_cons, app_assoc.
        rewrite app_length. simpl. replace (length (d ++ slash :: m) + 1 - 1) with (length (d ++ slash :: m)) by lia.
        rewrite firstn_app, firstn_all. replace (_ - _) with 0 by lia. simpl. now rewrite app_nil_r.
      + intros H. apply Hn. apply in_or_app. now left.
    - exists n. split; [|exact Hn]. unfold p. rewrite app_comm_cons, app_assoc.
      rewrite app_length. simpl. replace (length (d ++ slash :: n) + 1 - 1) with (length (d ++ slash :: n)) by lia.
      rewrite firstn_app, firstn_all. replace (_ - _) with 0 by lia. simpl. now rewrite app_nil_r.
    - exists []. split; [|simpl; tauto]. unfold p. simpl.
      change (d ++ [slash; slash]) with (d ++ [slash] ++ [slash]). rewrite app_assoc.
      rewrite app_length. simpl. replace (length (d ++ [slash]) + 1 - 1) with (length (d ++ [slash])) by lia.
      rewrite firstn_app, firstn_all. replace (_ - _) with 0 by lia. simpl. now rewrite app_nil_r. }
  unfold Dirname. destruct p as [|c p'] eqn:Ep; [simpl in Hlen; lia|]. rewrite <- Ep in *.
  rewrite str_eqb_false.
  2:{ intros He. rewrite He in Hlen. simpl in Hlen. lia. }
  replace (1 <=? length p) with true by (symmetry; apply Nat.leb_le; lia).
  unfold size_minus_2. replace (length p <? 2) with false by (symmetry; apply Nat.ltb_ge; lia).
  unfold find_last_upto. rewrite Hp, find_last_app by assumption.
  destruct d as [|x d']; [reflexivity|].
  simpl length. cbv iota. change (S (length d')) with (length (x :: d')).
  unfold p. apply substr_before.
Qed.

Lemma in_firstn (x : ascii) k (l : str) : In x (firstn k l) -> In x l.
Proof.
  intros H. rewrite <- (firstn_skipn k l). apply in_or_app. now left.
Qed.

Lemma dirname_plain n t :
  ~ In slash n -> n <> [] -> (t = [] \/ t = [slash]) -> Dirname (n ++ t) = [dot].
Proof.
  intros Hn Hne Ht. set (p := n ++ t).
  assert (p <> [slash]) as Hps.
  { unfold p. destruct n as [|x n]; [congruence|]. simpl. intros H. injection H as -> _.
    apply Hn. now left. }
  unfold Dirname. destruct p as [|c p'] eqn:Ep.
  { unfold p in Ep. destruct n; [congruence|discriminate]. }
  rewrite <- Ep in *. rewrite str_eqb_false by assumption.
  replace (1 <=? length p) with true by (symmetry; apply Nat.leb_le; rewrite Ep; simpl; lia).
  assert (find_last_upto slash p (size_minus_2 p) = None) as ->; [|reflexivity].
  unfold find_last_upto, size_minus_2. destruct (Nat.ltb_spec (length p) 2) as [Hlt|Hge].
  - apply find_last_none. unfold p in *. destruct Ht as [-> | ->].
    + now rewrite app_nil_r.
    + rewrite app_length in Hlt. simpl in Hlt. destruct n; [congruence|simpl in Hlt; lia].
  - apply find_last_none. intros Hin. apply Hn.
    unfold p in Hin. rewrite firstn_app in Hin. apply in_app_or in Hin as [Hin|Hin].
    + eapply in_firstn, Hin.
    + exfalso. destruct Ht as [-> | ->].
      * rewrite firstn_nil in Hin. destruct Hin.
      * unfold p in Hge. rewrite app_length in Hin. cbn [length] in Hin.
        assert (S (length n + 1 - 2) - length n = 0) as H0 by (destruct n; [congruence|simpl; lia]).
        rewrite H0 in Hin. destruct Hin.
Qed.

Lemma classify p :
  p = [] \/ p = [slash] \/
  (exists n t, ~ In slash n /\ n <> [] /\ (t = [] \/ t = [slash]) /\ p = n ++ t) \/
  (exists d n t, ~ In slash n /\
     (n <> [] /\ (t = [] \/ t = [slash]) \/ n = [] /\ t = [slash]) /\ p = d ++ slash :: n ++ t).
Proof.
  destruct (in_dec ascii_dec slash p) as [Hi|Hn].
  - destruct (split_last _ _ Hi) as (a & b & -> & Hb).
    destruct b as [|y b].
    + (* trailing slash *)
      destruct (in_dec ascii_dec slash a) as [Hia|Hna].
      * destruct (split_last _ _ Hia) as (a1 & b1 & -> & Hb1).
        right; right; right. exists a1, b1, [slash]. split; [exact Hb1|]. split.
        -- destruct b1; [right; auto|left; split; [discriminate|auto]].
        -- rewrite <- app_assoc. reflexivity.
      * destruct a as [|x a]; [right; left; reflexivity|].
        right; right; left. exists (x :: a), [slash]. repeat split; auto. discriminate.
    + right; right; right. exists a, (y :: b), []. split; [exact Hb|]. split.
      * left. split; [discriminate|auto].
      * now rewrite app_nil_r.
  - destruct p as [|x p]; [now left|]. right; right; left.
    exists (x :: p), []. repeat split; auto; [discriminate|now rewrite app_nil_r].
Qed.

Lemma join_relative d n :
  d <> [] -> d <> [dot] -> (forall d', d <> d' ++ [slash]) -> n <> [] -> ~ In slash n ->
  Join d n = d ++ slash :: n.
Proof.
  intros Hd Hdot Hs Hn Hns. unfold Join. rewrite str_eqb_false by assumption.
  unfold fs_append. destruct n as [|c n]; [congruence|].
  destruct (Ascii.eqb_spec c slash) as [->|Hc]; [exfalso; apply Hns; now left|].
  destruct (rev d) as [|l r] eqn:E.
  { apply (f_equal (@rev _)) in E. rewrite rev_involutive in E. simpl in E. congruence. }
  apply (f_equal (@rev _)) in E. rewrite rev_involutive in E. simpl in E.
  destruct (Ascii.eqb_spec l slash) as [->|Hl]; [exfalso; eapply Hs; exact E|]. reflexivity.
Qed.

Lemma join_dirname_name d n :
  d <> [] -> d <> [dot] -> (forall d', d <> d' ++ [slash]) -> n <> [] -> ~ In slash n ->
  Join (Dirname (d ++ slash :: n)) (name (d ++ slash :: n)) = d ++ slash :: n.
Proof.
  intros Hd Hdot Hs Hn Hns. rewrite name_dir by assumption.
  pose proof (dirname_split d n [] Hns ltac:(left; auto)) as H. rewrite app_nil_r in H. rewrite H.
  destruct d as [|x d]; [congruence|]. now apply join_relative.
Qed.
