(** Model of the covariance / correlation matrices of empyricalRMT: correlater.py and the matrix part of
    eigenvalues.py.  Exact arithmetic in an arbitrary real closed field [R] (every property below therefore holds for
    the real numbers); matrices are mathcomp matrices; [n] series in rows, [t] time points in columns.  No rounding. *)
From mathcomp Require Import all_ssreflect all_algebra.
Set Implicit Arguments.
Unset Strict Implicit.
Unset Printing Implicit Defensive.
Import GRing.Theory Num.Theory.
Local Open Scope ring_scope.

Section Corr.
Variables (R : rcfType) (n t : nat).
Implicit Type M : 'M[R]_(n, t).

(** [np.mean(M, axis=1)]. *)
Definition row_mean M (i : 'I_n) : R := (\sum_(k < t) M i k) / t%:R.
(** [M - np.mean(M, axis=1, keepdims=True)] (eigenvalues.py:953 and inside np.cov). *)
Definition centre M : 'M[R]_(n, t) := \matrix_(i, k) (M i k - row_mean M i).
(** [np.cov(M, ddof)] (numpy: centred product divided by [t - ddof]; meaningful for ddof < t). *)
Definition np_cov (ddof : nat) M : 'M[R]_n := (t%:R - ddof%:R)^-1 *: (centre M *m (centre M)^T).
(** [np.std(M, axis=1, ddof=1)]. *)
Definition np_std1 M (i : 'I_n) : R := Num.sqrt ((\sum_(k < t) (M i k - row_mean M i) ^+ 2) / (t%:R - 1)).
(** [np.clip(x, lo, hi)] = minimum(maximum(x, lo), hi). *)
Definition np_clip (lo hi x : R) : R := Num.min (Num.max x lo) hi.

(** correlater.py:11-15, the matrix before the clipping. *)
Definition corr_unclipped (ddof : nat) M : 'M[R]_n :=
  let c := np_cov ddof M in
  let sd i := Num.sqrt (c i i) in
  \matrix_(i, j) (c i j / sd i / sd j).
(** correlater.py:8-17 [correlate_fast]. *)
Definition correlate_fast (ddof : nat) M : 'M[R]_n := map_mx (np_clip (-1) 1) (corr_unclipped ddof M).

(** eigenvalues.py:244: the N x N matrix given to the eigensolver when N <= T. *)
Definition direct_matrix (covariance : bool) M : 'M[R]_n :=
  if covariance then np_cov 1 M else correlate_fast 1 M.

(** eigenvalues.py:949-956 [_eigs_via_transpose]: the T x T matrix given to the eigensolver when N > T
    (the guard of line 950 and the ZeroDivisionError at T = 1 are hypotheses of the theorems). *)
Definition transposed_matrix (covariance : bool) M : 'M[R]_t :=
  let Z := if covariance then centre M else \matrix_(i, k) (centre M i k / np_std1 M i) in
  Z^T *m ((t%:R - 1)^-1 *: Z).
End Corr.
