(** Specification vocabulary for covariance and correlation; independent of the model. *)
From mathcomp Require Import all_ssreflect all_algebra.
Set Implicit Arguments.
Unset Strict Implicit.
Unset Printing Implicit Defensive.
Import GRing.Theory Num.Theory.
Local Open Scope ring_scope.

Section Spec.
Variables (R : rcfType) (t : nat).
Implicit Type x y : 'I_t -> R.
(** Average, sample covariance and variance (divided by t-1), Pearson correlation of two series of length [t]. *)
Definition Avg x : R := (\sum_(k < t) x k) / t%:R.
Definition SampleCov x y : R := (\sum_(k < t) (x k - Avg x) * (y k - Avg y)) / t.-1%:R.
Definition SampleVar x : R := SampleCov x x.
Definition Pearson x y : R := SampleCov x y / (Num.sqrt (SampleVar x) * Num.sqrt (SampleVar y)).
(** The series takes at least two different values. *)
Definition NotConstant x : Prop := exists k l, x k != x l.
End Spec.

(** [a] is an eigenvalue of the square matrix [A]. *)
Definition IsEigenvalue (R : fieldType) (n : nat) (A : 'M[R]_n) (a : R) : Prop :=
  exists v : 'rV[R]_n, v != 0 /\ v *m A = a *: v.
