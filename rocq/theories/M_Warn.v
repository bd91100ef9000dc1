(** Model of the warning about small spectra given by [Eigenvalues.__init__], empyricalRMT/eigenvalues.py:31, 48-55.  The flag is a class
    attribute, read and written through [self.__class__]; the name is mangled to [_Eigenvalues__WARNED_SMALL] whatever the class of
    the object.  Whether a warning given twice is also printed twice is up to Python's warning filters and not modelled. *)
From Coq Require Import List ZArith Bool.
From Verif Require Import Base M_EigVals.
Import ListNotations.

Section Warn.
Context {F : Type} {N : Num F} (eigvalsh eigvals : ndarray F -> result (list F)).
(** Classes, by name; [mro c] is [c.__mro__]. *)
Context {C : Type} (same : C -> C -> bool) (mro : C -> list C).

(** The attribute [_Eigenvalues__WARNED_SMALL] in the dictionaries of the classes that have one of their own. *)
Definition flags : Type := list (C * bool).
Definition own (s : flags) (c : C) : option bool :=
  option_map snd (find (fun p => same (fst p) c) s).
(** eigenvalues.py:49 [self.__class__.__WARNED_SMALL]: the first class of the method resolution order that has the attribute. *)
Fixpoint read_flag (s : flags) (order : list C) : option bool :=
  match order with
  | [] => None
  | c :: rest => match own s c with Some b => Some b | None => read_flag s rest end
  end.
(** eigenvalues.py:55 [self.__class__.__WARNED_SMALL = True]: sets the attribute of the class itself. *)
Definition write_flag (s : flags) (c : C) : flags := (c, true) :: s.
(** eigenvalues.py:31. *)
Definition flags_at_import (base : C) : flags := [(base, false)].

(** eigenvalues.py:47-55: constructing an object of class [c] from [v]; is there a warning, and the flags afterwards.  An exception of
    [EigVals.__init__] comes first.  The second [None] (no class has the attribute) is an AttributeError. *)
Definition construct (s : flags) (c : C) (v : ctor_arg (F := F)) : result bool * flags :=
  match eigvals_init eigvalsh eigvals v with
  | Raise e => (Raise e, s)
  | Ok o =>
      if (Z.of_nat (length (o_vals o)) <? 50)%Z then
        match read_flag s (mro c) with
        | None => (Raise AttributeError, s)
        | Some true => (Ok false, s)
        | Some false => (Ok true, write_flag s c)
        end
      else (Ok false, s)
  end.

(** A program's constructions in order. *)
Fixpoint constructs (s : flags) (l : list (C * ctor_arg (F := F))) : list (result bool) :=
  match l with
  | [] => []
  | (c, v) :: rest => let (r, s') := construct s c v in r :: constructs s' rest
  end.
End Warn.
