(** Specification vocabulary for the closed form of the exact rigidity; independent of the model. *)
From Coq Require Import List ZArith Reals.
From Verif Require Import Base S_EigVals.
Import ListNotations.
Local Open Scope R_scope.

(** The share of the window of length L centred at c that lies above the level e: 1 below the window, 0 above it. *)
Definition Share (c L e : R) : R := Rmax 0 (Rmin 1 ((c + L / 2 - e) / L)).
(** The least mean squared distance from a line of a staircase with a unit step at each of the shares in [y]. *)
Definition PairTerm (a b : R) : R := Rmin a b - a * b - 3 * (a * (1 - a)) * (b * (1 - b)).
Definition RigidityForm (y : list R) : R := Rsum (map (fun a => Rsum (map (PairTerm a) y)) y).
