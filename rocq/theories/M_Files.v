(** Model of the directory helpers of empyricalRMT/utils.py.  The file system is a map from paths to what is found there; there are
    no links, no [..] components, no permission errors and no other process. *)
From Coq Require Import String List Bool Arith.
From Verif Require Import S_Files.
Import ListNotations.

Inductive oserror := FileExists | NotADirectory | FileNotFound.

Definition path_eqb (p q : path) : bool := if list_eq_dec string_dec p q then true else false.
Definition exists_ (t : tree) (p : path) : bool := match t p with Some _ => true | None => false end.
Definition put (t : tree) (p : path) : tree := fun q => if path_eqb q p then Some Dir else t q.

(** os.mkdir, called by os.makedirs. *)
Definition mkdir (t : tree) (p : path) : tree + oserror :=
  if exists_ t p then inr FileExists
  else match p with
       | [] => inr FileNotFound
       | _ :: parent => match t parent with
                        | Some Dir => inl (put t p)
                        | Some File => inr NotADirectory
                        | None => inr FileNotFound
                        end
       end.

(** os.makedirs (CPython, Lib/os.py) as called from utils.py:60, exist_ok = False: the missing parent first, FileExistsError of that call
    ignored; then the directory itself. *)
Fixpoint makedirs (t : tree) (p : path) : tree + oserror :=
  match p with
  | [] => mkdir t []
  | x :: parent =>
      if exists_ t parent then mkdir t (x :: parent)
      else match makedirs t parent with
           | inl t1 => mkdir t1 (x :: parent)
           | inr FileExists => mkdir t (x :: parent)
           | inr e => inr e
           end
  end.

(** utils.py:57-71 [make_directory]; the exception handler prints and re-raises. *)
Definition make_directory (t : tree) (p : path) : tree + oserror :=
  if exists_ t p then inl t else makedirs t p.

(** pathlib's [parents]: nearest first, the root last. *)
Fixpoint parents (p : path) : list path :=
  match p with [] => [] | _ :: q => q :: parents q end.

(** utils.py:77-81, the loop collecting folders until the home directory. *)
Fixpoint until_home (home : path) (ps : list path) : list path :=
  match ps with
  | [] => []
  | q :: rest => if negb (path_eqb q home) then q :: until_home home rest else []
  end.

(** utils.py:84-85, the loop making the folders. *)
Fixpoint make_all (t : tree) (ps : list path) : tree + oserror :=
  match ps with
  | [] => inl t
  | p :: rest => match make_directory t p with inl t1 => make_all t1 rest | inr e => inr e end
  end.

(** Path.absolute, utils.py:75. *)
Definition absolute (cwd : path) (is_absolute : bool) (p : path) : path := if is_absolute then p else p ++ cwd.

(** utils.py:74-85 [make_parent_directories]. *)
Definition make_parent_directories (cwd home : path) (t : tree) (is_absolute : bool) (p : path) : tree + oserror :=
  make_all t (rev (until_home home (parents (absolute cwd is_absolute p)))).
