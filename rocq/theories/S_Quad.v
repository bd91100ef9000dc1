(** Specification vocabulary for least squares and quadrature; independent of the model. *)
From Coq Require Import List Reals.
From Verif Require Import Base S_EigVals.
Import ListNotations.
Local Open Scope R_scope.

(** Residuals of the points (x_i, y_i) from the line a x + b. *)
Definition Residuals (x y : list R) (a b : R) : list R := map (fun p => snd p - (a * fst p + b)) (combine x y).
Definition SumSq (l : list R) : R := Rsum (map (fun v => v * v) l).

(** A strictly increasing grid. *)
Definition Increasing (g : list R) : Prop := forall i x y, nth_error g i = Some x -> nth_error g (S i) = Some y -> x < y.
(** Consecutive points all [s] apart. *)
Definition Uniform (s : R) (g : list R) : Prop := forall i x y, nth_error g i = Some x -> nth_error g (S i) = Some y -> y - x = s.

(** Trapezoidal sum of values [v] over the grid [g]. *)
Fixpoint TrapSum (g v : list R) : R :=
  match g, v with
  | x :: ((y :: _) as g'), a :: ((b :: _) as v') => (y - x) * (a + b) / 2 + TrapSum g' v'
  | _, _ => 0
  end.
(** Squared residuals of a line. *)
Definition SqResiduals (x y : list R) (a b : R) : list R := map (fun r => r * r) (Residuals x y a b).
(** [n] equally spaced points from [lo] to [hi] inclusive. *)
Definition EvenGrid (lo hi : R) (n : nat) : list R := map (fun i => lo + INR i * ((hi - lo) / (INR n - 1))) (seq 0 n).
