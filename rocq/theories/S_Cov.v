(** Specification vocabulary for covariances of time series; independent of the model. *)
From Coq Require Import Reals ZArith.
Local Open Scope R_scope.

(** [f 0 + ... + f (n-1)]. *)
Fixpoint Sum (f : nat -> R) (n : nat) : R := match n with O => 0 | S m => Sum f m + f m end.

(** [x i k]: series [i] at time [k]; [t] time points. *)
Definition Mean (x : nat -> nat -> R) (t i : nat) : R := Sum (x i) t / INR t.
(** Deviation from the mean. *)
Definition Dev (x : nat -> nat -> R) (t i k : nat) : R := x i k - Mean x t i.
(** Sample covariance of series [i] and [j]. *)
Definition SampleCov (x : nat -> nat -> R) (t i j : nat) : R := Sum (fun k => Dev x t i k * Dev x t j k) t / (INR t - 1).
(** Pearson correlation. *)
Definition Pearson (x : nat -> nat -> R) (t i j : nat) : R :=
  SampleCov x t i j / (sqrt (SampleCov x t i i) * sqrt (SampleCov x t j j)).
(** The value at [k] in units of the standard deviation of its series. *)
Definition Standard (x : nat -> nat -> R) (t i k : nat) : R := Dev x t i k / sqrt (SampleCov x t i i).
(** Series [i] takes two different values. *)
Definition Varies (x : nat -> nat -> R) (t i : nat) : Prop := exists k l, (k < t)%nat /\ (l < t)%nat /\ x i k <> x i l.
