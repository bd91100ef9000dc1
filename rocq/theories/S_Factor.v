(** Specification vocabulary for properties C163 and C164: weighted sums of correlations and covariances. *)
From Coq Require Import Reals.
From Verif Require Import S_Cov.
Local Open Scope R_scope.

(** Variance of the sum of the [n] standardised series with weights [w]: sum over all pairs of w_i w_j times their Pearson correlation. *)
Definition Pooled (x : nat -> nat -> R) (n t : nat) (w : nat -> R) : R := Sum (fun i => Sum (fun j => w i * w j * Pearson x t i j) n) n.
Definition Weight (n : nat) (w : nat -> R) : R := Sum (fun i => w i * w i) n.
(** Upper end of the Marchenko-Pastur law of [n] series of [t] values. *)
Definition UpperEnd (n t : nat) : R := (1 + sqrt (INR n / INR t)) ^ 2.
(** What an eigenvalue must exceed to be told from noise: the upper end b, or n b / (n + b) once the largest eigenvalue is taken out. *)
Definition Bar (shifted : bool) (n t : nat) : R := if shifted then INR n * UpperEnd n t / (INR n + UpperEnd n t) else UpperEnd n t.
(** Variance of the sum of the [n] series with weights [w], and the sum of their variances. *)
Definition Spread (x : nat -> nat -> R) (n t : nat) (w : nat -> R) : R := Sum (fun i => Sum (fun j => w i * w j * SampleCov x t i j) n) n.
Definition AllVariance (x : nat -> nat -> R) (n t : nat) : R := Sum (fun i => SampleCov x t i i) n.
