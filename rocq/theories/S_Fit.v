(** Specification vocabulary for fitted counting functions: polynomials by their coefficients, sums of squared residuals, and
    what NumPy's and SciPy's fitting routines promise.  Independent of the model. *)
From Coq Require Import List ZArith Reals.
From Verif Require Import Base.
Import ListNotations.
Local Open Scope R_scope.

(** The polynomial [c_0 + c_1 x + c_2 x^2 + ...]. *)
Definition PolyAt (c : list R) (x : R) : R := fold_right Rplus 0 (map (fun k => nth k c 0 * x ^ k) (seq 0 (length c))).

(** The sum of squared residuals of the curve [f] at the points [(x_i, y_i)]. *)
Fixpoint Sse (f : R -> R) (xs ys : list R) : R :=
  match xs, ys with x :: xs', y :: ys' => (f x - y) ^ 2 + Sse f xs' ys' | _, _ => 0 end.

(** The integers [1, ..., n]: the values of the counting function of [n] distinct levels. *)
Definition Staircase (n : nat) : list R := map INR (seq 1 n).

(** Polynomial fitting as NumPy documents it, in exact arithmetic: at most [deg + 1] coefficients, and no polynomial of that
    size has a smaller sum of squared residuals. *)
Definition LeastSquares (polyfit : list R -> list R -> Z -> result (list R)) : Prop :=
  forall xs ys d c, polyfit xs ys d = Ok c ->
    (Z.of_nat (length c) <= d + 1)%Z /\
    forall c', (Z.of_nat (length c') <= d + 1)%Z -> Sse (PolyAt c) xs ys <= Sse (PolyAt c') xs ys.

(** Smoothing splines as SciPy documents them: knots are added until the sum of squared residuals is at most [s] (FITPACK stops
    within a relative tolerance [tol] of it). *)
Definition SmoothsWithin (tol : R) (uspline : list R -> list R -> Z -> R -> result (R -> R)) : Prop :=
  forall xs ys k s f, uspline xs ys k s = Ok f -> Sse f xs ys <= s * (1 + tol).
