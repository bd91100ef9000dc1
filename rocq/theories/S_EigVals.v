(** Specification vocabulary for constructed spectra; independent of the model. *)
From Coq Require Import List ZArith Bool Reals Sorting.Permutation.
From Verif Require Import Base S_Order.
Import ListNotations.

Section Spec.
Context {F : Type} {N : Num F}.
(** Ascending with all NaNs at the end. *)
Definition AscendingNaNLast (l : list F) : Prop :=
  exists a b, l = a ++ b /\ Ascending a /\ Forall NotNaN a /\ Forall (fun v => isnan v = true) b.
(** Same value for every IEEE comparison ([0.0] and [-0.0] are the only distinct such pair in binary64). *)
Definition SameValue (x y : F) : Prop :=
  (isnan x = true /\ isnan y = true) \/ (Le x y /\ Le y x).
End Spec.

(** Mathematical sum of a list of reals. *)
Fixpoint Rsum (l : list R) : R := match l with [] => 0 | x :: t => x + Rsum t end%R.

(** A shape that can be read as one-dimensional: one leading axis and otherwise axes of length one, or an empty
    leading axis. *)
Definition OneDimensional (s : list nat) : Prop :=
  exists d rest, s = d :: rest /\ (d = 0%nat \/ Forall (fun k => k = 1%nat) rest).
