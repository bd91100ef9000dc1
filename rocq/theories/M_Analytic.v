(** Model of [unfold_goe] and [unfold_poisson] of empyricalRMT/eigenvalues.py and of the same unfolding in
    construct.py:16-58 [goe_unfolded].  [scipy.integrate.quad] is modelled by the exact integral (Riemann, or the
    limit for an infinite end); its quadrature error is not modelled. *)
From Coq Require Import List ZArith Bool Reals.
From Coquelicot Require Import Coquelicot.
From Verif Require Import Base.
Import ListNotations.
Local Open Scope R_scope.

(** eigenvalues.py:817-821 [__R1]; [end] = np.sqrt(2 * N). *)
Definition goe_R1 (n : nat) (x : R) : R :=
  if Rlt_dec (Rabs x) (sqrt (2 * INR n)) then (1 / PI) * sqrt (2 * INR n - x * x) else 0.

(** eigenvalues.py:825-828 [smooth_goe]. *)
Definition smooth_goe (n : nat) (x : R) : R :=
  let e := sqrt (2 * INR n) in
  if Rlt_dec e x then RInt (goe_R1 n) (- e) e else RInt (goe_R1 n) (- e) x.

(** eigenvalues.py:810-831 [unfold_goe]: the unfolded array.  [np.vectorize] of an empty array raises ValueError. *)
Definition unfold_goe (eigs : list R) : result (list R) :=
  match eigs with
  | [] => Raise ValueError
  | _ => Ok (np_sort (map (smooth_goe (length eigs)) eigs))
  end.

(** eigenvalues.py:867-871 [__R1] and [smooth_poisson]. *)
Definition poisson_R1 (x : R) : R := exp (- Rabs x).
Definition smooth_poisson (n : nat) (x : R) : R :=
  INR n * RInt_gen poisson_R1 (Rbar_locally m_infty) (at_point (Rabs x)).

(** eigenvalues.py:833-877 [unfold_poisson]. *)
Definition unfold_poisson (eigs : list R) : result (list R) :=
  match eigs with
  | [] => Raise ValueError
  | _ => Ok (np_sort (map (smooth_poisson (length eigs)) eigs))
  end.
