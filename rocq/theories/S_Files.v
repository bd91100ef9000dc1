(** Specification vocabulary for directories and figures; independent of the model.  A path is the list of its components, last
    component first; the root is the empty list. *)
From Coq Require Import String List Reals.
Import ListNotations.

Definition path := list string.
Inductive kind := Dir | File.
(** What is found at every path. *)
Definition tree := path -> option kind.

(** Where a path leads, seen from the working directory. *)
Definition Located (cwd : path) (is_absolute : bool) (p : path) : path := if is_absolute then p else p ++ cwd.
(** [q] is a proper ancestor of [p]. *)
Definition Ancestor (q p : path) : Prop := exists x pre, p = x :: pre ++ q.
(** [q] is [p] or an ancestor of it. *)
Definition Within (q p : path) : Prop := exists pre, p = pre ++ q.
(** The root is a directory, and whatever exists lies in a directory. *)
Definition WellFormed (t : tree) : Prop := t [] = Some Dir /\ forall x p, t (x :: p) <> None -> t p = Some Dir.
(** The ancestors of [p] below the home directory; all ancestors if [p] is not below it. *)
Definition Required (home p q : path) : Prop := Ancestor q p /\ (Ancestor home p -> Ancestor home q).
(** No regular file stands where a directory above [p] is needed. *)
Definition Unobstructed (t : tree) (p : path) : Prop := forall f, Ancestor f p -> t f <> Some File.

(** The number of entries of [l] in [lo, hi); no lower limit for [None]. *)
Definition CountIn (lo : option R) (hi : R) (l : list R) : nat :=
  List.length (filter (fun v => (match lo with None => true | Some a => if Rle_dec a v then true else false end)
                             && (if Rlt_dec v hi then true else false))%bool l).
