(** Model of the string functions of jlm/util/file.hpp (class FilePath).
    Exists, IsDirectory, isFile, CreateDirectory, createUniqueFileName and
    TempDirectoryPath depend on the file system and are not modelled. *)
From Coq Require Import List Ascii Arith Lia.
Import ListNotations.


Definition str := list ascii.
Definition slash : ascii := "/"%char.
Definition dot : ascii := "."%char.

(** std::string::find_first_of(c): index of the first c, None is npos *)
Fixpoint find_first (c : ascii) (s : str) : option nat :=
  match s with
  | [] => None
  | x :: s => if Ascii.eqb x c then Some 0 else option_map S (find_first c s)
  end.
(** std::string::find_last_of(c) *)
Fixpoint find_last (c : ascii) (s : str) : option nat :=
  match s with
  | [] => None
  | x :: s => match find_last c s with
              | Some n => Some (S n)
              | None => if Ascii.eqb x c then Some 0 else None
              end
  end.
(** std::string::find_last_of(c, pos): only indices <= pos; [None] is npos,
    which is what size() - 2 wraps to for a one character string. *)
Definition find_last_upto (c : ascii) (s : str) (pos : option nat) : option nat :=
  match pos with
  | None => find_last c s
  | Some p => find_last c (firstn (S p) s)
  end.
(** std::string::substr(pos, n) for pos <= size() *)
Definition substr (s : str) (pos n : nat) : str := firstn n (skipn pos s).

(** file.hpp:80-88 name *)
Definition name (p : str) : str :=
  match find_last slash p with
  | None => p
  | Some pos => substr p (pos + 1) (length p - pos)
  end.
(** file.hpp:60-69 base *)
Definition base (p : str) : str :=
  let fn := name p in
  match find_first dot fn with
  | None => fn
  | Some pos => substr fn 0 pos
  end.
(** file.hpp:97-106 complete_suffix *)
Definition complete_suffix (p : str) : str :=
  let fn := name p in
  match find_first dot fn with
  | None => fn
  | Some pos => substr fn (pos + 1) (length fn - pos)
  end.
(** file.hpp:115-124 suffix *)
Definition suffix (p : str) : str :=
  let fn := name p in
  match find_last dot fn with
  | None => fn
  | Some pos => substr fn (pos + 1) (length fn - pos)
  end.

Definition str_eqb (a b : str) : bool := if list_eq_dec ascii_dec a b then true else false.

(** path_.size() - 2 in size_t arithmetic *)
Definition size_minus_2 (p : str) : option nat :=
  if length p <? 2 then None else Some (length p - 2).

(** file.hpp:147-170 Dirname *)
Definition Dirname (p : str) : str :=
  match p with
  | [] => [dot]
  | _ =>
    if str_eqb p [slash] then [slash]
    else
      let lastSlash :=
        if 1 <=? length p then find_last_upto slash p (size_minus_2 p) else None in
      match lastSlash with
      | None => [dot]
      | Some 0 => [slash]
      | Some l => substr p 0 l
      end
  end.

(** std::filesystem::path::append on a POSIX system *)
Definition fs_append (t other : str) : str :=
  match other with
  | c :: _ => if Ascii.eqb c slash then other
              else match rev t with
                   | [] => other
                   | l :: _ => if Ascii.eqb l slash then t ++ other else t ++ [slash] ++ other
                   end
  | [] => match rev t with
          | [] => []
          | l :: _ => if Ascii.eqb l slash then t else t ++ [slash]
          end
  end.
(** file.hpp:192-198 Join *)
Definition Join (p other : str) : str :=
  fs_append (if str_eqb p [dot] then [] else p) other.
(** file.hpp:210-214 WithSuffix *)
Definition WithSuffix (p s : str) : str := p ++ s.
