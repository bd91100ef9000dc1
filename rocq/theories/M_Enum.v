(** Model of the string-valued Python enumerations of empyricalRMT and their [validate] methods. *)
From Coq Require Import List String Bool.
From Verif Require Import Base.
Import ListNotations.
Local Open Scope string_scope.

(** An enumeration class body: the assignments [Name = "value"] in source order.  Python makes a name whose value was
    already used an alias of the earlier one, so a member is identified by the first name carrying its value. *)
Definition enum := list (string * string).
Fixpoint canonical (e : enum) (value : string) : option string :=
  match e with
  | [] => None
  | (nm, v) :: t => if String.eqb v value then Some nm else canonical t value
  end.
(** The member that [Class.Name] denotes, for an assigned name. *)
Fixpoint value_of (e : enum) (name : string) : option string :=
  match e with
  | [] => None
  | (nm, v) :: t => if String.eqb nm name then Some v else value_of t name
  end.
Definition member (e : enum) (name : string) : option string :=
  match value_of e name with Some v => canonical e v | None => None end.

(** A Python argument: a string, a member of the class (by canonical name), or any other object. *)
Inductive enum_arg := PStr (s : string) | PMember (m : string) | PObj.

(** _types.py:30-38, smoother.py:38-46, signalproc/detrend.py:27-35 [validate] (the three bodies are the same). *)
Definition validate (e : enum) (a : enum_arg) : result enum_arg :=
  match a with
  | PStr s => match canonical e s with Some m => Ok (PMember m) | None => Raise ValueError end
  | _ => Ok a
  end.

(** _types.py:23-28. *)
Definition MatrixKind : enum :=
  [("GOE", "goe"); ("GUE", "gue"); ("GDE", "poisson"); ("Poisson", "poisson"); ("Uniform", "uniform")].
(** smoother.py:30-36. *)
Definition SmoothMethod : enum :=
  [("Polynomial", "poly"); ("Spline", "spline"); ("Exponential", "exp"); ("Gompertz", "gompertz"); ("GOE", "goe");
   ("Poisson", "poisson")].
(** signalproc/detrend.py:19-22. *)
Definition DetrendMethod : enum := [("EMD", "emd"); ("Linear", "linear"); ("Quadratic", "quadratic")].
