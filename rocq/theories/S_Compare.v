(** Specification vocabulary for curve comparison; independent of the model. *)
From Coq Require Import List ZArith Reals Arith.
From Verif Require Import Base S_EigVals S_Trim.
Import ListNotations.
Local Open Scope R_scope.

(** Mean squared and mean absolute difference of two curves sampled at the same points. *)
Definition MeanSq (a b : list R) : R := Rmean (map (fun p => (fst p - snd p) * (fst p - snd p)) (combine a b)).
Definition MeanAbs (a b : list R) : R := Rmean (map (fun p => Rabs (fst p - snd p)) (combine a b)).
(** Every curve has [t] points. *)
Definition AllLength {A} (t : nat) (curves : list (list A)) : Prop := Forall (fun c => length c = t) curves.
(** Entry (i, j) of a table given by rows. *)
Definition Entry {A} (d : list (list A)) (i j : nat) (x : A) : Prop := exists row, nth_error d i = Some row /\ nth_error row j = Some x.
(** Sum of products of deviations from the mean, and Pearson's correlation coefficient. *)
Definition Codev (a b : list R) : R := Rsum (map (fun p => (fst p - Rmean a) * (snd p - Rmean b)) (combine a b)).
Definition Pearson (a b : list R) : R := Codev a b / sqrt (Codev a a * Codev b b).
Definition NonConstant (a : list R) : Prop := exists x y, In x a /\ In y a /\ x <> y.
