(** Property theorems for jlm/util/file.hpp, class FilePath (C25). *)
From Coq Require Import List Ascii String Arith.
From Verif.FilePath Require Import Model Proofs.
Import ListNotations.

(** name(): for every directory part d and every n without '/', the name of
    d/n is n; the name of a plain n is n (these are all strings). *)
Theorem filepath_name :
  (forall n, ~ In slash n -> name n = n) /\
  (forall d n, ~ In slash n -> name (d ++ slash :: n) = n) /\
  (forall p, ~ In slash (name p)).
Proof. split; [exact name_no_dir|]. split; [exact name_dir|exact name_no_slash]. Qed.
Print Assumptions filepath_name.

(** base() / complete_suffix() split the name at its first dot. *)
Theorem filepath_base_complete_suffix :
  forall p b e, name p = b ++ dot :: e -> ~ In dot b -> base p = b /\ complete_suffix p = e.
Proof. exact base_dot. Qed.
Print Assumptions filepath_base_complete_suffix.

(** suffix() is what follows the last dot of the name. *)
Theorem filepath_suffix :
  forall p b e, name p = b ++ dot :: e -> ~ In dot e -> suffix p = e.
Proof. exact suffix_dot. Qed.
Print Assumptions filepath_suffix.

(** Without a dot, base, suffix and complete_suffix are all the whole name: a
    file without extension reports its own name as extension. *)
Theorem filepath_no_dot :
  forall p, ~ In dot (name p) -> base p = name p /\ suffix p = name p /\ complete_suffix p = name p.
Proof. exact no_dot. Qed.
Print Assumptions filepath_no_dot.

(** Dirname(), case by case; the cases cover every string. *)
Theorem filepath_dirname :
  Dirname [] = [dot] /\ Dirname [slash] = [slash] /\
  (forall n t, ~ In slash n -> n <> [] -> (t = [] \/ t = [slash]) -> Dirname (n ++ t) = [dot]) /\
  (forall d n t, ~ In slash n ->
     (n <> [] /\ (t = [] \/ t = [slash]) \/ n = [] /\ t = [slash]) ->
     Dirname (d ++ slash :: n ++ t) = match d with [] => [slash] | _ => d end).
Proof.
  split; [reflexivity|]. split; [reflexivity|]. split; [exact dirname_plain|exact dirname_split].
Qed.
Print Assumptions filepath_dirname.

Theorem filepath_dirname_cases :
  forall p,
  p = [] \/ p = [slash] \/
  (exists n t, ~ In slash n /\ n <> [] /\ (t = [] \/ t = [slash]) /\ p = n ++ t) \/
  (exists d n t, ~ In slash n /\
     (n <> [] /\ (t = [] \/ t = [slash]) \/ n = [] /\ t = [slash]) /\ p = d ++ slash :: n ++ t).
Proof. exact classify. Qed.
Print Assumptions filepath_dirname_cases.

(** Round trip: joining Dirname and name gives the path back. *)
Theorem filepath_join_dirname_name :
  forall d n, d <> [] -> d <> [dot] -> (forall d', d <> d' ++ [slash]) -> n <> [] -> ~ In slash n ->
  Join (Dirname (d ++ slash :: n)) (name (d ++ slash :: n)) = d ++ slash :: n.
Proof. exact join_dirname_name. Qed.
Print Assumptions filepath_join_dirname_name.

(** "Emulates the behavior of the GNU coreutil dirname ... without a trailing
    '/'" fails for repeated slashes: dirname a//b is a, Dirname gives a/ ;
    dirname a// is ., Dirname gives a. *)
Definition s (x : string) : str := list_ascii_of_string x.
Theorem filepath_dirname_gnu_refuted :
  Dirname (s "a//b") = s "a/" /\ Dirname (s "a//") = s "a".
Proof. split; reflexivity. Qed.
Print Assumptions filepath_dirname_gnu_refuted.

Example documented :
  Dirname (s "/tmp/archive.tar.gz") = s "/tmp" /\ Dirname (s "/tmp/jlm/") = s "/tmp" /\
  Dirname (s "/a") = s "/" /\ Dirname (s "a/..") = s "a" /\ Dirname (s "test.txt") = s "." /\
  name (s "/tmp/archive.tar.gz") = s "archive.tar.gz" /\ base (s "/tmp/archive.tar.gz") = s "archive" /\
  complete_suffix (s "/tmp/archive.tar.gz") = s "tar.gz" /\ suffix (s "/tmp/archive.tar.gz") = s "gz" /\
  Join (s "a/b") (s "c/d") = s "a/b/c/d" /\ Join (s "/tmp/") (s "a.txt") = s "/tmp/a.txt" /\
  Join (s ".") (s "e.txt") = s "e.txt" /\ Join (s "a/b") (s "/tmp/x") = s "/tmp/x".
Proof. repeat split. Qed.
