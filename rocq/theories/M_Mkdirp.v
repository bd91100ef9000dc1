(** Model of [mkdirp] of empyricalRMT/utils.py; same file system as M_Files. *)
From Coq Require Import String List Bool Arith.
From Verif Require Import S_Files M_Files.
Import ListNotations.

(** os.path.isdir *)
Definition isdir (t : tree) (p : path) : bool := match t p with Some Dir => true | _ => false end.
(** The last step of os.makedirs with exist_ok = True (CPython, Lib/os.py): an OSError of os.mkdir is ignored if the directory is there. *)
Definition mkdir_exist_ok (t : tree) (p : path) : tree + oserror :=
  match mkdir t p with inl t1 => inl t1 | inr e => if isdir t p then inl t else inr e end.
(** os.makedirs(p, exist_ok=True): the missing parent first with the same flag, FileExistsError of that call ignored. *)
Fixpoint makedirs_exist_ok (t : tree) (p : path) : tree + oserror :=
  match p with
  | [] => mkdir_exist_ok t []
  | x :: parent =>
      if exists_ t parent then mkdir_exist_ok t (x :: parent)
      else match makedirs_exist_ok t parent with
           | inl t1 => mkdir_exist_ok t1 (x :: parent)
           | inr FileExists => mkdir_exist_ok t (x :: parent)
           | inr e => inr e
           end
  end.
(** utils.py:44-54 [mkdirp]; the exception handler prints and re-raises. *)
Definition mkdirp (t : tree) (p : path) : tree + oserror := makedirs_exist_ok t p.
